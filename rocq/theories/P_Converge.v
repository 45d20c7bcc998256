(** C13: the site-fraction iteration converges to the solution of the mass-action law, for weak
    association and for equal association of all sites. *)
From Coq Require Import ZArith QArith Reals Lra Lia String List Bool Arith.
From Coquelicot Require Import Coquelicot.
From Interval Require Import Tactic.
From Verif Require Import Num RNum RSum Tables M_Params F_Params M_Eos Spec F_Spec F_SpecPolar
  F_SpecAssoc F_Contrib Samples P_Params
  F_Newton F_MassAction F_MassAction2 F_Gauss F_NewtonR F_Cross P_Assoc P_Assoc2.
Import ListNotations.
Local Open Scope R_scope.
Set Bullet Behavior "Strict Subproofs".
Notation length := List.length.

Lemma rsum_abs {A} (l : list A) (f : A -> R) : Rabs (rsum l f) <= rsum l (fun a => Rabs (f a)).
Proof.
  induction l as [ | a l IH]; cbn [rsum]; [rewrite Rabs_R0; lra | ].
  eapply Rle_trans; [apply Rabs_triang | lra].
Qed.
Lemma rsum_const {A} (l : list A) (c : R) : rsum l (fun _ => c) = INR (length l) * c.
Proof. induction l as [ | a l IH]; cbn [rsum]; [cbn; ring | ]. rewrite IH. cbn [length]. rewrite S_INR. ring. Qed.
Lemma nth_map_seq (f : nat -> R) n k : (k < n)%nat -> nth k (map f (seq 0 n)) 0 = f k.
Proof.
  intros Hk. rewrite (nth_indep _ 0 (f 0%nat)) by (rewrite map_length, seq_length; auto).
  rewrite (map_nth f), seq_nth; auto.
Qed.
Lemma nth_repeat_lt {A} (a d : A) n k : (k < n)%nat -> nth k (repeat a n) d = a.
Proof. revert k. induction n; intros [|k] H; cbn; auto; try lia. apply IHn. lia. Qed.

(* --------------------------------------------------- iterations that keep an invariant *)

Section Invariant.
  Variable lu : lu_solver RNum.
  Hypothesis Hlu : lu_exact lu.
  Variables (p : params RNum) (t : R) (rho r : list R) (n2 n3i xi : R).
  Notation n := (p_nassoc p).
  Notation str := (str p t r n2 n3i xi).
  Notation sa := (sa p).
  Notation sb := (sb p).
  Notation den := (den p rho).
  Notation resnorm := (residual_norm n str sa sb den).
  Notation update := (newton_update n str sa sb den).
  Notation energy := (site_energy n sa sb den).
  Notation cross := (@cross_association RNum lu p t rho r n2 n3i xi).
  Hypothesis Hstr : forall i j, (i < n)%nat -> (j < n)%nat -> 0 <= str i j.
  Hypothesis Hsites : forall i, (i < n)%nat -> 0 <= sa i /\ 0 <= sb i /\ 0 <= den i.

  Lemma first_below (P : nat -> bool) K : P K = true ->
    exists k, (k <= K)%nat /\ P k = true /\ forall j, (j < k)%nat -> P j = false.
  Proof.
    revert P. induction K as [ | K IH]; intros P H.
    - exists O. repeat split; auto. intros j Hj. lia.
    - destruct (P O) eqn:E0; [exists O; repeat split; auto; [lia | intros j Hj; lia] | ].
      destruct (IH (fun k => P (S k)) H) as (k & Hk & Pk & Pj). exists (S k). repeat split; auto; [lia | ].
      intros [ | j] Hj; auto. apply Pj. lia.
  Qed.

  (** an invariant of Newton's method that implies positive fractions and, at step [K], a small
      residual: the routine succeeds, after at most [K] steps *)
  Theorem C13_invariant (I : nat -> list R -> Prop) K max_iter tol x0 :
    (K < max_iter)%nat -> / 2 ^ 52 <= rsum rho (fun x => x) -> I O (first_guess p x0) ->
    (forall j x, I j x -> length x = (2 * n)%nat /\ all_positive n x) ->
    (forall j x x', I j x -> update x x' -> I (S j) x') ->
    (forall x, I K x -> resnorm x < tol) ->
    exists k (y : nat -> list R), (k <= K)%nat /\ y O = first_guess p x0 /\ (forall j, I j (y j)) /\
      (forall j, update (y j) (y (S j))) /\
      (forall j, (j < k)%nat -> tol <= resnorm (y j)) /\ resnorm (y k) < tol /\
      cross max_iter tol x0 = (Ok (energy (y (S k))), option_map (fun _ => y (S k)) x0).
  Proof.
    intros HK Hd I0 IP IS IK.
    set (nxt := fun x => match @newton_step RNum gauss_lu n (ca_delta p t r n2 n3i xi) (ca_sel p (p_na p)) (ca_sel p (p_nb p)) (ca_sel p rho) tol x with
      | Ok (x', _) => x' | Err _ => x end).
    assert (U : forall x, length x = (2 * n)%nat -> all_positive n x -> update x (nxt x)).
    { intros x Lx Px. assert (Lx' : length x = (n + n)%nat) by lia.
      assert (Px' : forall k, (k < n + n)%nat -> 0 < nth k x 0) by (apply (from_halves n (fun k => 0 < nth k x 0)); exact Px).
      assert (Pz : no_zero n x) by (intros i Hi; destruct (Px i Hi); split; lra).
      destruct (step_positive gauss_lu n (ca_delta p t r n2 n3i xi) (ca_sel p (p_na p)) (ca_sel p (p_nb p)) (ca_sel p rho) tol gauss_lu_exact
        (coef p t rho r n2 n3i xi Hstr Hsites) x Lx' Px') as (x' & E & L').
      unfold nxt. rewrite E.
      apply update_eq. apply (proj2 (update_spec n _ _ _ _ gauss_lu tol x x' _ gauss_lu_exact Lx E) Pz). }
    set (y := fix y j := match j with O => first_guess p x0 | S j => nxt (y j) end).
    assert (Iy : forall j, I j (y j)).
    { induction j as [ | j IH]; auto. cbn [y]. apply (IS j (y j)); auto. destruct (IP _ _ IH). apply U; auto. }
    assert (Uy : forall j, update (y j) (y (S j))).
    { intros j. destruct (IP _ _ (Iy j)). apply U; auto. }
    destruct (first_below (fun j => Rltb (resnorm (y j)) tol) K) as (k & Hk & Pk & Pj).
    { apply Rltb_true. apply IK. auto. }
    apply Rltb_true in Pk.
    assert (Pj' : forall j, (j < k)%nat -> tol <= resnorm (y j)) by (intros j Hj; apply Rltb_false; auto).
    exists k, y. split; auto. split; auto. split; auto. split; auto. split; auto. split; auto.
    assert (Ls : length (first_guess p x0) = (2 * n)%nat) by (apply (IP O); auto).
    destruct (C13_outcome lu Hlu p t rho r n2 n3i xi Hstr Hsites max_iter tol x0 y ltac:(lia) Hd Ls eq_refl) as [A _].
    - intros j Hj. split; auto. apply (IP _ _ (Iy j)).
    - apply A; auto. lia.
  Qed.
End Invariant.

(* ----------------------------------------------------------------- weak association *)

Section Weak.
  Variables (n : nat) (De : nat -> nat -> R) (A B Ro : nat -> R).
  Hypothesis HDe : forall i j, (i < n)%nat -> (j < n)%nat -> 0 <= De i j.
  Hypothesis HAB : forall i, (i < n)%nat -> 0 <= A i /\ 0 <= B i /\ 0 <= Ro i.
  (** every site sees at most a quarter of a bond when all sites are free *)
  Definition weak : Prop := forall i, (i < n)%nat ->
    (Sum j < n, Ro j * B j * De i j) <= / 4 /\ (Sum j < n, Ro j * A j * De i j) <= / 4.
  Hypothesis Hw : weak.
  Notation ba := (bonds_a n De B Ro).
  Notation bb := (bonds_b n De A Ro).
  Notation update := (newton_update n De A B Ro).

  Definition site_defect (x : list R) (f : R) : Prop := forall i, (i < n)%nat ->
    Rabs (fa x i * (1 + ba x i) - 1) <= f /\ Rabs (fb n x i * (1 + bb x i) - 1) <= f.
  Definition weak_inv (j : nat) (x : list R) : Prop := length x = (2 * n)%nat /\
    (forall i, (i < n)%nat -> 0 < fa x i <= 2 /\ 0 < fb n x i <= 2) /\ site_defect x ((4 / 5) ^ (2 ^ j)).

  Lemma ba_bound (x : list R) M i : (i < n)%nat -> 0 <= M -> (forall j, (j < n)%nat -> Rabs (fb n x j) <= M) -> Rabs (ba x i) <= M / 4.
  Proof.
    intros Hi HM H. unfold bonds_a. eapply Rle_trans; [apply rsum_abs | ].
    apply Rle_trans with (Sum j < n, M * (Ro j * B j * De i j)).
    - apply rsum_le. intros j Hj. apply seq_in in Hj. destruct (HAB j Hj) as (_ & ? & ?). pose proof (HDe i j Hi Hj).
      replace (Ro j * B j * fb n x j * De i j) with ((Ro j * B j * De i j) * fb n x j) by ring.
      assert (0 <= Ro j * B j * De i j) by (repeat apply Rmult_le_pos; auto).
      rewrite Rabs_mult, (Rabs_pos_eq (Ro j * B j * De i j)) by auto. rewrite Rmult_comm. apply Rmult_le_compat_r; auto.
    - rewrite rsum_scal. destruct (Hw i Hi). unfold Rdiv. apply Rmult_le_compat_l; auto.
  Qed.
  Lemma bb_bound (x : list R) M i : (i < n)%nat -> 0 <= M -> (forall j, (j < n)%nat -> Rabs (fa x j) <= M) -> Rabs (bb x i) <= M / 4.
  Proof.
    intros Hi HM H. unfold bonds_b. eapply Rle_trans; [apply rsum_abs | ].
    apply Rle_trans with (Sum j < n, M * (Ro j * A j * De i j)).
    - apply rsum_le. intros j Hj. apply seq_in in Hj. destruct (HAB j Hj) as (? & _ & ?). pose proof (HDe i j Hi Hj).
      replace (Ro j * A j * fa x j * De i j) with ((Ro j * A j * De i j) * fa x j) by ring.
      assert (0 <= Ro j * A j * De i j) by (repeat apply Rmult_le_pos; auto).
      rewrite Rabs_mult, (Rabs_pos_eq (Ro j * A j * De i j)) by auto. rewrite Rmult_comm. apply Rmult_le_compat_r; auto.
    - rewrite rsum_scal. destruct (Hw i Hi). unfold Rdiv. apply Rmult_le_compat_l; auto.
  Qed.
  Lemma ba_nonneg (x : list R) i : (i < n)%nat -> (forall j, (j < n)%nat -> 0 <= fb n x j) -> 0 <= ba x i.
  Proof.
    intros Hi H. apply rsum_nonneg. intros j Hj. apply seq_in in Hj. destruct (HAB j Hj) as (_ & ? & ?).
    pose proof (HDe i j Hi Hj). repeat apply Rmult_le_pos; auto.
  Qed.
  Lemma bb_nonneg (x : list R) i : (i < n)%nat -> (forall j, (j < n)%nat -> 0 <= fa x j) -> 0 <= bb x i.
  Proof.
    intros Hi H. apply rsum_nonneg. intros j Hj. apply seq_in in Hj. destruct (HAB j Hj) as (? & _ & ?).
    pose proof (HDe i j Hi Hj). repeat apply Rmult_le_pos; auto.
  Qed.

  Lemma max_list (d : nat -> R) m : exists M, 0 <= M /\ (forall k, (k < m)%nat -> Rabs (d k) <= M) /\
    (M = 0 \/ exists k, (k < m)%nat /\ Rabs (d k) = M).
  Proof.
    induction m as [ | m (M & HM & Hk & E)]; [exists 0; repeat split; auto; [lra | intros; lia] | ].
    destruct (Rle_or_lt (Rabs (d m)) M) as [H | H].
    - exists M. split; auto. split.
      + intros k H2. destruct (Nat.eq_dec k m) as [-> | ]; auto. apply Hk. lia.
      + destruct E as [ | (k & ? & ?)]; auto. right. exists k. split; auto.
    - exists (Rabs (d m)). split; [apply Rabs_pos | ]. split.
      + intros k H2. destruct (Nat.eq_dec k m) as [-> | ]; [lra | ]. apply Rle_trans with M; [apply Hk; lia | lra].
      + right. exists m. split; auto.
  Qed.

  Definition diff (x x' : list R) : list R := map (fun k => nth k x 0 - nth k x' 0) (seq 0 (2 * n)).
  Lemma diff_nth x x' k : (k < 2 * n)%nat -> nth k (diff x x') 0 = nth k x 0 - nth k x' 0.
  Proof. intros Hk. unfold diff. rewrite (nth_map_seq (fun k => nth k x 0 - nth k x' 0)); auto. Qed.
  Lemma ba_diff x x' i : ba (diff x x') i = ba x i - ba x' i.
  Proof.
    unfold bonds_a. rewrite <- rsum_minus. apply Sum_ext. intros j Hj. unfold fb. rewrite diff_nth by lia. ring.
  Qed.
  Lemma bb_diff x x' i : bb (diff x x') i = bb x i - bb x' i.
  Proof.
    unfold bonds_b. rewrite <- rsum_minus. apply Sum_ext. intros j Hj. unfold fa. rewrite diff_nth by lia. ring.
  Qed.

  Lemma abs_mult_le a b u w : Rabs a <= u -> Rabs b <= w -> Rabs (a * b) <= u * w.
  Proof. intros. rewrite Rabs_mult. apply Rmult_le_compat; auto using Rabs_pos. Qed.

  Lemma weak_step x x' f : 0 <= f < 1 -> length x = (2 * n)%nat ->
    (forall i, (i < n)%nat -> 0 < fa x i <= 2 /\ 0 < fb n x i <= 2) -> site_defect x f -> update x x' ->
    (forall i, (i < n)%nat -> 0 < fa x' i <= 2 /\ 0 < fb n x' i <= 2) /\ site_defect x' (f * f).
  Proof.
    intros Hf Lx Px Sx [Lx' U]. set (d := diff x x').
    assert (Da : forall i, (i < n)%nat -> fa d i = fa x i - fa x' i) by (intros; apply diff_nth; lia).
    assert (Db : forall i, (i < n)%nat -> fb n d i = fb n x i - fb n x' i) by (intros; apply diff_nth; lia).
    assert (Eq : forall i, (i < n)%nat ->
      fa d i * (1 + ba x i) + fa x i * ba d i = fa x i * (1 + ba x i) - 1 /\
      fb n d i * (1 + bb x i) + fb n x i * bb d i = fb n x i * (1 + bb x i) - 1).
    { intros i Hi. destruct (U i Hi) as [U1 U2]. rewrite Da, Db by auto. unfold d. rewrite ba_diff, bb_diff. split; lra. }
    destruct (max_list (fun k => nth k d 0) (n + n)) as (M & HM & Hk & E).
    assert (Ha : forall i, (i < n)%nat -> Rabs (fa d i) <= M) by (intros i Hi; apply (Hk i); lia).
    assert (Hb : forall i, (i < n)%nat -> Rabs (fb n d i) <= M) by (intros i Hi; apply (Hk (n + i)%nat); lia).
    assert (Bx : forall i, (i < n)%nat -> 0 <= ba x i /\ 0 <= bb x i).
    { intros i Hi. split; [apply ba_nonneg | apply bb_nonneg]; auto; intros j Hj; destruct (Px j Hj); lra. }
    assert (Sm : forall u w b D, 0 < u <= 2 -> 0 <= b -> Rabs D <= M / 4 -> Rabs (u * (1 + b) - 1) <= f ->
       w * (1 + b) + u * D = u * (1 + b) - 1 -> Rabs w <= f + M / 2).
    { intros u w b D Hu Hb1 HD Hfu Ew.
      assert (Rabs (w * (1 + b)) <= f + M / 2).
      { replace (w * (1 + b)) with ((u * (1 + b) - 1) - u * D) by lra.
        unfold Rminus at 1. eapply Rle_trans; [apply Rabs_triang | ]. rewrite Rabs_Ropp, Rabs_mult, (Rabs_pos_eq u) by lra.
        apply Rplus_le_compat; auto. replace (M / 2) with (2 * (M / 4)) by field.
        apply Rmult_le_compat; try lra. apply Rabs_pos. }
      rewrite Rabs_mult, (Rabs_pos_eq (1 + b)) in H by lra. pose proof (Rabs_pos w). nra. }
    assert (M2 : M <= 2 * f).
    { assert (M <= f + M / 2); [ | lra]. destruct E as [-> | (k & Hkn & EM)]; [lra | ]. rewrite <- EM at 1.
      destruct (Nat.lt_ge_cases k n) as [Hl | Hl].
      - destruct (Eq k Hl) as [E1 _]. destruct (Px k Hl). destruct (Sx k Hl). destruct (Bx k Hl).
        apply (Sm (fa x k) _ (ba x k) (ba d k)); auto. apply ba_bound; auto.
      - assert (Hl2 : (k - n < n)%nat) by lia. destruct (Eq _ Hl2) as [_ E1]. destruct (Px _ Hl2). destruct (Sx _ Hl2). destruct (Bx _ Hl2).
        replace (nth k d 0) with (fb n d (k - n)) by (unfold fb; f_equal; lia).
        apply (Sm (fb n x (k - n)) _ (bb x (k - n)%nat) (bb d (k - n)%nat)); auto. apply bb_bound; auto. }
    assert (Fx : forall i, (i < n)%nat ->
      fa x' i * (1 + ba x' i) - 1 = fa d i * ba d i /\ fb n x' i * (1 + bb x' i) - 1 = fb n d i * bb d i).
    { intros i Hi. destruct (U i Hi) as [U1 U2]. rewrite Da, Db by auto. unfold d. rewrite ba_diff, bb_diff. split; lra. }
    assert (Sd : site_defect x' (f * f)).
    { intros i Hi. destruct (Fx i Hi) as [F1 F2]. rewrite F1, F2.
      pose proof (ba_bound d M i Hi HM Hb). pose proof (bb_bound d M i Hi HM Ha).
      replace (f * f) with ((2 * f) * (2 * f / 4)) by field.
      split; apply abs_mult_le; try (eapply Rle_trans; [eauto | lra]). }
    assert (Ps : forall i, (i < n)%nat -> 0 < fa x' i /\ 0 < fb n x' i).
    { intros i Hi. destruct (Sd i Hi) as [S1 S2]. destruct (Bx i Hi) as [B1 B2].
      pose proof (ba_bound d M i Hi HM Hb) as G1. pose proof (bb_bound d M i Hi HM Ha) as G2.
      unfold d in G1, G2. rewrite ba_diff in G1. rewrite bb_diff in G2.
      apply Rabs_le_between in S1, S2, G1, G2. split.
      - assert (0 < 1 + ba x' i) by lra. assert (0 < fa x' i * (1 + ba x' i)) by nra. nra.
      - assert (0 < 1 + bb x' i) by lra. assert (0 < fb n x' i * (1 + bb x' i)) by nra. nra. }
    split; auto. intros i Hi. destruct (Ps i Hi). destruct (Sd i Hi) as [S1 S2]. apply Rabs_le_between in S1, S2.
    assert (0 <= ba x' i) by (apply ba_nonneg; auto; intros j Hj; destruct (Ps j Hj); lra).
    assert (0 <= bb x' i) by (apply bb_nonneg; auto; intros j Hj; destruct (Ps j Hj); lra).
    split; split; auto; nra.
  Qed.

  Lemma fifth_range j : 0 < (4 / 5) ^ (2 ^ j) <= 4 / 5.
  Proof.
    split; [apply pow_lt; lra | ]. assert (1 <= 2 ^ j)%nat by (apply Nat.pow_le_mono_r with (b := 0%nat) (c := j); lia).
    replace (2 ^ j)%nat with (S (2 ^ j - 1)) by lia. cbn [pow].
    assert (0 < (4 / 5) ^ (2 ^ j - 1) <= 1); [ | nra].
    generalize (2 ^ j - 1)%nat. intros m. induction m; cbn [pow]; nra.
  Qed.
  Lemma weak_inv_step j x x' : weak_inv j x -> update x x' -> weak_inv (S j) x'.
  Proof.
    intros (Lx & Px & Sx) U. pose proof (fifth_range j).
    destruct (weak_step x x' ((4 / 5) ^ (2 ^ j)) ltac:(lra) Lx Px Sx U) as [P1 S1].
    split; [apply U | ]. split; auto.
    replace (2 ^ S j)%nat with (2 ^ j + 2 ^ j)%nat by (cbn; lia). rewrite pow_add. auto.
  Qed.
  Lemma weak_inv_start : weak_inv 0 (repeat (2 / 10) (2 * n)).
  Proof.
    assert (Hn : forall k, (k < 2 * n)%nat -> nth k (repeat (2 / 10) (2 * n)) 0 = 2 / 10).
    { intros k Hk. apply nth_repeat_lt. auto. }
    assert (Ha : forall i, (i < n)%nat -> fa (repeat (2 / 10) (2 * n)) i = 2 / 10) by (intros; apply Hn; lia).
    assert (Hb : forall i, (i < n)%nat -> fb n (repeat (2 / 10) (2 * n)) i = 2 / 10) by (intros; apply Hn; lia).
    split; [apply repeat_length | ]. split; [intros i Hi; rewrite Ha, Hb by auto; lra | ].
    intros i Hi. rewrite Ha, Hb by auto. cbn [Nat.pow pow].
    assert (G1 : Rabs (ba (repeat (2 / 10) (2 * n)) i) <= 2 / 10 / 4).
    { apply ba_bound; auto; [lra | ]. intros j Hj. rewrite Hb by auto. rewrite Rabs_pos_eq; lra. }
    assert (G2 : Rabs (bb (repeat (2 / 10) (2 * n)) i) <= 2 / 10 / 4).
    { apply bb_bound; auto; [lra | ]. intros j Hj. rewrite Ha by auto. rewrite Rabs_pos_eq; lra. }
    assert (0 <= ba (repeat (2 / 10) (2 * n)) i) by (apply ba_nonneg; auto; intros j Hj; rewrite Hb by auto; lra).
    assert (0 <= bb (repeat (2 / 10) (2 * n)) i) by (apply bb_nonneg; auto; intros j Hj; rewrite Ha by auto; lra).
    apply Rabs_le_between in G1, G2. split; apply Rabs_le_between; lra.
  Qed.
  Lemma weak_inv_norm j x : weak_inv j x ->
    residual_norm n De A B Ro x <= 8 * sqrt (2 * INR n) * (4 / 5) ^ (2 ^ j).
  Proof.
    intros (Lx & Px & Sx). set (f := (4 / 5) ^ (2 ^ j)) in *. pose proof (fifth_range j) as Hf. fold f in Hf.
    assert (R1 : forall u b, 0 < u <= 2 -> 0 <= b <= / 2 -> Rabs (u * (1 + b) - 1) <= f -> (1 / u - 1 - b) ^ 2 <= (8 * f) ^ 2).
    { intros u b Hu Hb1 Hfu. apply Rabs_le_between in Hfu.
      assert (U1 : 2 / 15 <= u) by nra.
      replace (1 / u - 1 - b) with (- (u * (1 + b) - 1) / u) by (field; lra).
      rewrite <- (pow2_abs (_ / u)). apply pow_incr. split; [apply Rabs_pos | ].
      rewrite Rabs_div by lra. rewrite Rabs_Ropp, (Rabs_pos_eq u) by lra.
      apply Rmult_le_reg_r with u; [lra | ]. unfold Rdiv. rewrite Rmult_assoc, Rinv_l by lra.
      assert (Rabs (u * (1 + b) - 1) <= f) by (apply Rabs_le_between; auto). nra. }
    assert (Bx : forall i, (i < n)%nat -> 0 <= ba x i <= / 2 /\ 0 <= bb x i <= / 2).
    { intros i Hi. split; split.
      - apply ba_nonneg; auto. intros k Hk. destruct (Px k Hk). lra.
      - replace (/ 2) with (2 / 4) by field. eapply Rle_trans; [apply Rle_abs | ]. apply ba_bound; auto; [lra | ].
        intros k Hk. destruct (Px k Hk). rewrite Rabs_pos_eq; lra.
      - apply bb_nonneg; auto. intros k Hk. destruct (Px k Hk). lra.
      - replace (/ 2) with (2 / 4) by field. eapply Rle_trans; [apply Rle_abs | ]. apply bb_bound; auto; [lra | ].
        intros k Hk. destruct (Px k Hk). rewrite Rabs_pos_eq; lra. }
    unfold residual_norm.
    replace (8 * sqrt (2 * INR n) * f) with (sqrt (2 * INR n * (8 * f) ^ 2)).
    2:{ rewrite sqrt_mult_alt by (pose proof (pos_INR n); lra). rewrite sqrt_pow2 by lra. ring. }
    apply sqrt_le_1_alt.
    assert (C : forall g : nat -> R, (forall i, (i < n)%nat -> g i <= (8 * f) ^ 2) -> (Sum i < n, g i) <= INR n * (8 * f) ^ 2).
    { intros g Hg. apply Rle_trans with (Sum i < n, (8 * f) ^ 2); [apply rsum_le; intros i Hi; apply seq_in in Hi; auto | ].
      rewrite rsum_const, seq_length. lra. }
    apply Rle_trans with (INR n * (8 * f) ^ 2 + INR n * (8 * f) ^ 2); [ | lra].
    apply Rplus_le_compat; apply C; intros i Hi; destruct (Px i Hi), (Bx i Hi), (Sx i Hi); apply R1; auto.
  Qed.
End Weak.

(* -------------------------------------------------- equal association of all sites *)

Section Uniform.
  Variables (n : nat) (De : nat -> nat -> R) (A B Ro : nat -> R) (d : R).
  Hypothesis HDe : forall i j, (i < n)%nat -> (j < n)%nat -> 0 <= De i j.
  Hypothesis HAB : forall i, (i < n)%nat -> 0 <= A i /\ 0 <= B i /\ 0 <= Ro i.
  Hypothesis Hd : 0 <= d.
  (** every site sees [d] bonds when all sites are free *)
  Hypothesis Hu : forall i, (i < n)%nat ->
    (Sum j < n, Ro j * B j * De i j) = d /\ (Sum j < n, Ro j * A j * De i j) = d.
  Notation ba := (bonds_a n De B Ro).
  Notation bb := (bonds_b n De A Ro).
  Notation update := (newton_update n De A B Ro).
  Notation same w := (repeat (w : R) (2 * n)).

  Lemma same_a w i : (i < n)%nat -> fa (same w) i = w.
  Proof. intros Hi. apply nth_repeat_lt. lia. Qed.
  Lemma same_b w i : (i < n)%nat -> fb n (same w) i = w.
  Proof. intros Hi. apply nth_repeat_lt. lia. Qed.
  Lemma same_ba w i : (i < n)%nat -> ba (same w) i = d * w.
  Proof.
    intros Hi. unfold bonds_a. rewrite <- (proj1 (Hu i Hi)). rewrite Rmult_comm, <- rsum_scal.
    apply Sum_ext. intros j Hj. rewrite same_b by auto. ring.
  Qed.
  Lemma same_bb w i : (i < n)%nat -> bb (same w) i = d * w.
  Proof.
    intros Hi. unfold bonds_b. rewrite <- (proj2 (Hu i Hi)). rewrite Rmult_comm, <- rsum_scal.
    apply Sum_ext. intros j Hj. rewrite same_a by auto. ring.
  Qed.
  Lemma uni_ba_bound (x : list R) M i : (i < n)%nat -> (forall j, (j < n)%nat -> Rabs (fb n x j) <= M) -> Rabs (ba x i) <= d * M.
  Proof.
    intros Hi H. unfold bonds_a. eapply Rle_trans; [apply rsum_abs | ].
    rewrite <- (proj1 (Hu i Hi)), Rmult_comm, <- rsum_scal.
    apply rsum_le. intros j Hj. apply seq_in in Hj. destruct (HAB j Hj) as (_ & ? & ?). pose proof (HDe i j Hi Hj).
    replace (Ro j * B j * fb n x j * De i j) with ((Ro j * B j * De i j) * fb n x j) by ring.
    assert (0 <= Ro j * B j * De i j) by (repeat apply Rmult_le_pos; auto).
    rewrite Rabs_mult, (Rabs_pos_eq (Ro j * B j * De i j)) by auto. rewrite Rmult_comm. apply Rmult_le_compat_r; auto.
  Qed.
  Lemma uni_bb_bound (x : list R) M i : (i < n)%nat -> (forall j, (j < n)%nat -> Rabs (fa x j) <= M) -> Rabs (bb x i) <= d * M.
  Proof.
    intros Hi H. unfold bonds_b. eapply Rle_trans; [apply rsum_abs | ].
    rewrite <- (proj2 (Hu i Hi)), Rmult_comm, <- rsum_scal.
    apply rsum_le. intros j Hj. apply seq_in in Hj. destruct (HAB j Hj) as (? & _ & ?). pose proof (HDe i j Hi Hj).
    replace (Ro j * A j * fa x j * De i j) with ((Ro j * A j * De i j) * fa x j) by ring.
    assert (0 <= Ro j * A j * De i j) by (repeat apply Rmult_le_pos; auto).
    rewrite Rabs_mult, (Rabs_pos_eq (Ro j * A j * De i j)) by auto. rewrite Rmult_comm. apply Rmult_le_compat_r; auto.
  Qed.

  (** Newton's method for one unknown *)
  Definition next (w : R) : R := (1 + d * (w * w)) / (1 + 2 * (d * w)).
  Lemma uniform_step w x' : 0 < w -> update (same w) x' -> x' = same (next w).
  Proof.
    intros Hw [Lx U]. pose proof (Rmult_le_pos d w Hd ltac:(lra)) as Hdw. set (w' := next w).
    assert (Ew : w' * (1 + d * w) + w * (d * w' - d * w) = 1) by (unfold w', next; field; lra).
    set (e := diff n x' (same w')).
    assert (Ea : forall i, (i < n)%nat -> fa e i = fa x' i - w').
    { intros i Hi. unfold e, fa. rewrite diff_nth by lia. f_equal. apply nth_repeat_lt. lia. }
    assert (Eb : forall i, (i < n)%nat -> fb n e i = fb n x' i - w').
    { intros i Hi. unfold e, fb. rewrite diff_nth by lia. f_equal. apply nth_repeat_lt. lia. }
    assert (Eq : forall i, (i < n)%nat -> fa e i * (1 + d * w) + w * ba e i = 0 /\ fb n e i * (1 + d * w) + w * bb e i = 0).
    { intros i Hi. destruct (U i Hi) as [U1 U2]. rewrite Ea, Eb by auto. unfold e.
      rewrite ba_diff, bb_diff. rewrite !same_ba, !same_bb in * by auto. rewrite !same_a, !same_b in * by auto. split; nra. }
    destruct (max_list (fun k => nth k e 0) (n + n)) as (M & HM & Hk & E).
    assert (Ha : forall i, (i < n)%nat -> Rabs (fa e i) <= M) by (intros i Hi; apply (Hk i); lia).
    assert (Hb : forall i, (i < n)%nat -> Rabs (fb n e i) <= M) by (intros i Hi; apply (Hk (n + i)%nat); lia).
    assert (Sm : forall u D, Rabs D <= d * M -> u * (1 + d * w) + w * D = 0 -> Rabs u * (1 + d * w) <= d * w * M).
    { intros u D HD Eu. replace (Rabs u * (1 + d * w)) with (Rabs (u * (1 + d * w))) by (rewrite Rabs_mult, (Rabs_pos_eq (1 + d * w)) by lra; auto).
      replace (u * (1 + d * w)) with (- (w * D)) by lra. rewrite Rabs_Ropp, Rabs_mult, (Rabs_pos_eq w) by lra.
      replace (d * w * M) with (w * (d * M)) by ring. apply Rmult_le_compat_l; lra. }
    assert (M0 : M = 0).
    { destruct E as [E | (k & Hkn & EM)]; auto. assert (M * (1 + d * w) <= d * w * M); [ | nra]. rewrite <- EM at 1.
      destruct (Nat.lt_ge_cases k n) as [Hl | Hl].
      - apply (Sm _ (ba e k)); [apply uni_ba_bound; auto | apply (Eq k Hl)].
      - assert (Hl2 : (k - n < n)%nat) by lia.
        replace (nth k e 0) with (fb n e (k - n)) by (unfold fb; f_equal; lia).
        apply (Sm _ (bb e (k - n)%nat)); [apply uni_bb_bound; auto | apply (Eq _ Hl2)]. }
    apply (nth_ext _ _ 0 0); [rewrite Lx, repeat_length; auto | ]. intros k Hkl. rewrite Lx in Hkl.
    specialize (Hk k ltac:(lia)). cbv beta in Hk. unfold e in Hk. rewrite diff_nth in Hk by auto.
    rewrite M0 in Hk. pose proof (Rabs_pos (nth k x' 0 - nth k (same w') 0)).
    destruct (Req_dec (nth k x' 0 - nth k (same w') 0) 0) as [ | Hn]; [lra | ]. apply Rabs_pos_lt in Hn. lra.
  Qed.

  Lemma next_pos w : 0 < w -> 0 < next w.
  Proof.
    intros Hw. pose proof (Rmult_le_pos d w Hd ltac:(lra)). assert (0 <= d * (w * w)) by (rewrite <- Rmult_assoc; apply Rmult_le_pos; lra).
    unfold next. apply Rdiv_lt_0_compat; lra.
  Qed.
  Lemma next_defect w : 0 < w ->
    next w * (1 + d * next w) - 1 = d * ((w * (1 + d * w) - 1) / (1 + 2 * (d * w))) ^ 2.
  Proof. intros Hw. pose proof (Rmult_le_pos d w Hd ltac:(lra)). unfold next. field. lra. Qed.
  (** above the solution the defect shrinks at least by a factor of four *)
  Lemma next_quarter w : 0 < w -> 0 <= w * (1 + d * w) - 1 ->
    0 <= next w * (1 + d * next w) - 1 <= (w * (1 + d * w) - 1) / 4.
  Proof.
    intros Hw Hf. rewrite next_defect by auto. set (f := w * (1 + d * w) - 1) in *.
    pose proof (Rmult_le_pos d w Hd ltac:(lra)) as Hdw.
    assert (E : (1 + 2 * (d * w)) ^ 2 = 1 + 4 * d * (1 + f)) by (unfold f; ring).
    assert (P : 0 < (1 + 2 * (d * w)) ^ 2) by (apply pow_lt; lra).
    replace (d * (f / (1 + 2 * (d * w))) ^ 2) with (d * f ^ 2 / (1 + 2 * (d * w)) ^ 2) by (field; lra).
    assert (0 <= d * f ^ 2) by (apply Rmult_le_pos; [auto | apply pow_le; auto]).
    split; [apply Rdiv_le_0_compat; auto | ].
    apply Rmult_le_reg_r with ((1 + 2 * (d * w)) ^ 2); [auto | ].
    unfold Rdiv at 1. rewrite Rmult_assoc, Rinv_l by lra. rewrite E.
    assert (0 <= d * f) by (apply Rmult_le_pos; auto). assert (0 <= d * f * f) by (apply Rmult_le_pos; auto). nra.
  Qed.
  Lemma next_first : 0 <= next (2 / 10) * (1 + d * next (2 / 10)) - 1 <= d.
  Proof.
    rewrite next_defect by lra.
    assert (P : 0 < (1 + 2 * (d * (2 / 10)))) by lra.
    assert (Q : ((2 / 10 * (1 + d * (2 / 10)) - 1) / (1 + 2 * (d * (2 / 10)))) ^ 2 <= 1).
    { set (u := (2 / 10 * (1 + d * (2 / 10)) - 1) / (1 + 2 * (d * (2 / 10)))).
      assert (Eu : u * (1 + 2 * (d * (2 / 10))) = 2 / 10 * (1 + d * (2 / 10)) - 1) by (unfold u; field; lra).
      assert (-1 <= u) by (apply Rmult_le_reg_r with (1 + 2 * (d * (2 / 10))); auto; rewrite Eu; lra).
      assert (u <= 1) by (apply Rmult_le_reg_r with (1 + 2 * (d * (2 / 10))); auto; rewrite Eu; lra). nra. }
    split; [apply Rmult_le_pos; [auto | apply pow2_ge_0] | ].
    pose proof (Rmult_le_compat_l d _ _ Hd Q). lra.
  Qed.

  Definition uniform_inv (j : nat) (x : list R) : Prop := exists w : R, x = same w /\ 0 < w /\
    match j with O => w = 2 / 10 | S i => 0 <= w * (1 + d * w) - 1 <= d / 4 ^ i end.
  Lemma uniform_inv_start : uniform_inv 0 (same (2 / 10)).
  Proof. exists (2 / 10). repeat split; lra. Qed.
  Lemma uniform_inv_step j x x' : uniform_inv j x -> update x x' -> uniform_inv (S j) x'.
  Proof.
    intros (w & -> & Hw & Hj) U. exists (next w). split; [apply uniform_step; auto | ]. split; [apply next_pos; auto | ].
    destruct j as [ | i].
    - subst w. pose proof next_first. cbn [pow]. lra.
    - destruct (next_quarter w Hw ltac:(lra)) as [Q1 Q2]. split; auto. eapply Rle_trans; [exact Q2 | ].
      cbn [pow]. replace (d / (4 * 4 ^ i)) with (d / 4 ^ i / 4) by (field; apply pow_nonzero; lra). lra.
  Qed.
  Lemma uniform_inv_pos j x : uniform_inv j x -> length x = (2 * n)%nat /\ all_positive n x.
  Proof.
    intros (w & -> & Hw & _). split; [apply repeat_length | ]. intros i Hi. rewrite same_a, same_b by auto. auto.
  Qed.
  Lemma uniform_inv_norm i x : d <= 4 ^ i -> uniform_inv (S i) x ->
    residual_norm n De A B Ro x <= sqrt (2 * INR n) * (d * (1 + 2 * d) / 4 ^ i).
  Proof.
    intros Hi (w & -> & Hw & Hf). pose proof (Rmult_le_pos d w Hd ltac:(lra)) as Hdw.
    assert (P4 : 0 < 4 ^ i) by (apply pow_lt; lra).
    assert (F1 : d / 4 ^ i <= 1).
    { apply Rmult_le_reg_r with (4 ^ i); auto. unfold Rdiv. rewrite Rmult_assoc, Rinv_l by lra. lra. }
    assert (W2 : w <= 2) by nra.
    set (f := w * (1 + d * w) - 1) in *. set (b := d / 4 ^ i) in *.
    assert (R1 : forall i, (i < n)%nat -> (1 / w - 1 - d * w) ^ 2 <= (b * (1 + 2 * d)) ^ 2).
    { intros _ _. replace (1 / w - 1 - d * w) with (- f / w) by (unfold f; field; lra).
      rewrite <- (pow2_abs (_ / w)). apply pow_incr. split; [apply Rabs_pos | ].
      rewrite Rabs_div by lra. rewrite Rabs_Ropp, (Rabs_pos_eq w), (Rabs_pos_eq f) by lra.
      apply Rmult_le_reg_r with w; [lra | ]. unfold Rdiv. rewrite Rmult_assoc, Rinv_l by lra.
      assert (1 <= (1 + 2 * d) * w) by (unfold f in Hf; nra). nra. }
    unfold residual_norm.
    replace (sqrt (2 * INR n) * (d * (1 + 2 * d) / 4 ^ i)) with (sqrt (2 * INR n * (b * (1 + 2 * d)) ^ 2)).
    2:{ rewrite sqrt_mult_alt by (pose proof (pos_INR n); lra). rewrite sqrt_pow2; [unfold b; field; lra | ].
        apply Rmult_le_pos; lra. }
    apply sqrt_le_1_alt.
    assert (C : forall g : nat -> R, (forall i, (i < n)%nat -> g i <= (b * (1 + 2 * d)) ^ 2) -> (Sum i < n, g i) <= INR n * (b * (1 + 2 * d)) ^ 2).
    { intros g Hg. apply Rle_trans with (Sum i < n, (b * (1 + 2 * d)) ^ 2); [apply rsum_le; intros k Hk; apply seq_in in Hk; auto | ].
      rewrite rsum_const, seq_length. lra. }
    apply Rle_trans with (INR n * (b * (1 + 2 * d)) ^ 2 + INR n * (b * (1 + 2 * d)) ^ 2); [ | lra].
    apply Rplus_le_compat; apply C; intros k Hk.
    - rewrite same_a, same_ba by auto. apply (R1 k Hk).
    - rewrite same_b, same_bb by auto. apply (R1 k Hk).
  Qed.
End Uniform.

(* ------------------------------------------------------------- the equation of state *)

(** [a] is the published association energy of the mixture, times the volume, up to the
    tolerance; the law has exactly one solution with fractions in (0,1] ([C14_published_law]) *)
Definition tol_error (p : params RNum) (v : R) (moles : list R) (tol : R) : R :=
  v * (3 / 2 * ((1 + tol) / (1 - tol) ^ 2 - 1) * Sum i < N (mix_of p), nth i moles 0 / v * (Na (mix_of p) i + Nb (mix_of p) i)).
Definition close_to_law (p : params RNum) (t v : R) (moles : list R) (err a : R) : Prop :=
  let X := mix_of p in
  let rho i := nth i moles 0 / v in
  forall xa xb, mass_action X t rho xa xb -> (forall i, (i < N X)%nat -> 0 < xa i <= 1 /\ 0 < xb i <= 1) ->
  Rabs (a - v * f_assoc_xx X rho xa xb) <= err.

Section Eos.
  Variable lu : lu_solver RNum.
  Hypothesis Hlu : lu_exact lu.
  Variables (prs : list (pure_record RNum)) (bin : list (list R)) (p : params RNum).
  Hypothesis Hp : from_records prs bin = Some p.
  Hypothesis Hph : phys p.
  Hypothesis Hap : assoc_phys p.
  Variables (t v : R) (moles : list R).
  Hypothesis PS : phys_state p t v moles.
  Let W := wfp_from_records _ _ _ Hp.
  Let X := mix_of p.
  Let rho i := nth i moles 0 / v.
  Let c := comp p.
  Notation n := (p_nassoc p).
  Let De := fun i j => Delta X t rho (c i) (c j).
  Let A := fun i => Na X (c i).
  Let B := fun i => Nb X (c i).
  Let Ro := fun i => rho (c i).
  Hypothesis Hd : / 2 ^ 52 <= Rho X rho.

  (** lengths and positivity are kept and the residual is small at step [K]: the contribution is
      returned and agrees with the published association energy within the tolerance *)
  Theorem eos_invariant (I : nat -> list R -> Prop) K max_iter tol : (K < max_iter)%nat -> 0 < tol < 1 ->
    I O (repeat (2 / 10) (2 * n)) ->
    (forall j x, I j x -> length x = (2 * n)%nat /\ all_positive n x) ->
    (forall j x x', I j x -> newton_update n De A B Ro x x' -> I (S j) x') ->
    (forall x, I K x -> residual_norm n De A B Ro x < tol) ->
    exists a, a_cross_assoc lu max_iter tol p (@state_new RNum t v moles) = Some a /\
      close_to_law p t v moles (tol_error p v moles tol) a.
  Proof.
    intros HK Ht I0 IP IS IK.
    assert (Hd' : / 2 ^ 52 <= rsum (s_rho (@state_new RNum t v moles)) (fun x : R => x)).
    { eapply Rle_trans; [exact Hd | ]. right. unfold Rho. rewrite (rsum_nth _ 0).
      assert (Lr : length (s_rho (@state_new RNum t v moles)) = length (p_m p)).
      { cbn [s_rho state_new]. rewrite map_length. apply (ps_len _ _ _ _ PS). }
      match goal with |- rsum (seq 0 ?n1) _ = rsum (seq 0 ?n2) _ => replace n2 with n1 by (symmetry; exact Lr) end.
      apply Sum_ext. intros i Hi. symmetry.
      apply (s_rho_ix p t v moles (ps_len _ _ _ _ PS) i Hi). }
    set (st := str p t (seg_radius p t) (n2_ p t v moles) (n3i_ p t v moles) (@n1 RNum)).
    set (dn := den p (s_rho (@state_new RNum t v moles))).
    assert (Es : forall i j, (i < n)%nat -> (j < n)%nat -> st i j = De i j) by (intros i j Hi Hj; apply (str_Delta p t v moles i j W Hph PS Hi Hj)).
    assert (Ed : forall i, (i < n)%nat -> dn i = Ro i) by (intros i Hi; apply (den_rho p t v moles i W PS Hi)).
    assert (Ea : forall i, (i < n)%nat -> sa p i = A i) by reflexivity.
    assert (Eb : forall i, (i < n)%nat -> sb p i = B i) by reflexivity.
    assert (Ba : forall y i, (i < n)%nat -> bonds_a n st (sb p) dn y i = bonds_a n De B Ro y i).
    { intros y i Hi. apply Sum_ext. intros j Hj. rewrite Es, Ed, Eb by auto. auto. }
    assert (Bb : forall y i, (i < n)%nat -> bonds_b n st (sa p) dn y i = bonds_b n De A Ro y i).
    { intros y i Hi. apply Sum_ext. intros j Hj. rewrite Es, Ed, Ea by auto. auto. }
    assert (Hstr : forall i j, (i < n)%nat -> (j < n)%nat -> 0 <= st i j).
    { intros i j Hi Hj. rewrite Es by auto. apply (Delta_nonneg p Hph Hap t v moles PS); apply (comp_lt p W); auto. }
    assert (Hsites : forall i, (i < n)%nat -> 0 <= sa p i /\ 0 <= sb p i /\ 0 <= dn i).
    { intros i Hi. rewrite Ed by auto. pose proof (comp_lt p W i Hi) as Hc.
      split; [ | split].
      - apply Hap. auto.
      - apply Hap. auto.
      - unfold Ro, rho, c. apply Rmult_le_pos; [ | left; apply Rinv_0_lt_compat; apply (ps_v _ _ _ _ PS)].
        apply (ps_nonneg _ _ _ _ PS). auto. }
    destruct (C13_invariant lu Hlu p t (s_rho (@state_new RNum t v moles)) (seg_radius p t) (n2_ p t v moles) (n3i_ p t v moles) (@n1 RNum)
      Hstr Hsites I K max_iter tol None HK Hd' I0 IP) as (k & y & Hk & Y0 & Yi & Yu & Yj & Yk & E).
    - intros j x x' Hj [L U]. apply (IS j x); auto. split; auto. intros i Hi. specialize (U i Hi).
      change (@P_Assoc.str p t (seg_radius p t) (n2_ p t v moles) (n3i_ p t v moles) (@n1 RNum)) with st in U.
      change (@P_Assoc.den p (s_rho (@state_new RNum t v moles))) with dn in U.
      rewrite !Ba, !Bb in U by auto. exact U.
    - intros x Hx. specialize (IK x Hx). eapply Rle_lt_trans; [ | exact IK]. right.
      unfold residual_norm. f_equal.
      change (@P_Assoc.str p t (seg_radius p t) (n2_ p t v moles) (n3i_ p t v moles) (@n1 RNum)) with st.
      change (@P_Assoc.den p (s_rho (@state_new RNum t v moles))) with dn.
      f_equal; apply Sum_ext; intros i Hi; [rewrite Ba by auto | rewrite Bb by auto]; auto.
    - assert (Ha : exists a, a_cross_assoc lu max_iter tol p (@state_new RNum t v moles) = Some a).
      { unfold a_cross_assoc. eexists.
        match goal with |- match ?F with _ => _ end = _ =>
          replace F with (@Ok R (site_energy n (sa p) (sb p) dn (y (S k)))) by (symmetry; exact (f_equal fst E)) end.
        reflexivity. }
      destruct Ha as [a Ha]. exists a. split; auto. unfold close_to_law, tol_error; cbv zeta. intros xa xb HM HB.
      destruct (C13_equation_of_state lu prs bin p t v moles max_iter tol a Hlu Hp Hph Hap PS ltac:(lia) Ht Hd Ha)
        as (k2 & z & Hk2 & (Z0 & Z1 & _) & _ & Acc).
      apply Acc; auto.
      assert (Iz : forall j, (j <= k2)%nat -> I j (z j)).
      { induction j as [ | j IH]; intros Hj; [rewrite Z0; exact I0 | ].
        specialize (IH ltac:(lia)). apply (IS j (z j)); auto. destruct (Z1 j ltac:(lia)) as [_ U]. apply U.
        destruct (IP _ _ IH) as [_ P]. intros i Hi. destruct (P i Hi). split; lra. }
      apply (IP k2). apply Iz. auto.
  Qed.

  Let HDe i j : (i < n)%nat -> (j < n)%nat -> 0 <= De i j.
  Proof. intros Hi Hj. apply (Delta_nonneg p Hph Hap t v moles PS); apply (comp_lt p W); auto. Qed.
  Let HAB i : (i < n)%nat -> 0 <= A i /\ 0 <= B i /\ 0 <= Ro i.
  Proof.
    intros Hi. pose proof (comp_lt p W i Hi) as Hc. split; [apply Hap; auto | ]. split; [apply Hap; auto | ].
    unfold Ro, rho, c. apply Rmult_le_pos; [ | left; apply Rinv_0_lt_compat; apply (ps_v _ _ _ _ PS)].
    apply (ps_nonneg _ _ _ _ PS). auto.
  Qed.
  Let sum_b i : (Sum j < n, Ro j * B j * De i j) = Sum j < N X, rho j * Nb X j * Delta X t rho (c i) j.
  Proof.
    apply (sum_assoc p W (fun j => rho j * Nb X j * Delta X t rho (c i) j)).
    intros j Hj E. unfold X, rho. rewrite Delta_nonassoc by auto. ring.
  Qed.
  Let sum_a i : (Sum j < n, Ro j * A j * De i j) = Sum j < N X, rho j * Na X j * Delta X t rho (c i) j.
  Proof.
    apply (sum_assoc p W (fun j => rho j * Na X j * Delta X t rho (c i) j)).
    intros j Hj E. unfold X, rho. rewrite Delta_nonassoc by auto. ring.
  Qed.

  (** Weak association: if no component would form more than 1/4 bonds per site when all sites are
      free, the contribution is returned and agrees with the published energy. *)
  Theorem C13_weak_association K max_iter tol : (K < max_iter)%nat -> 0 < tol < 1 ->
    8 * sqrt (2 * INR n) * (4 / 5) ^ (2 ^ K) < tol ->
    (forall i, (i < N X)%nat -> (Sum j < N X, rho j * Nb X j * Delta X t rho i j) <= / 4 /\
                                (Sum j < N X, rho j * Na X j * Delta X t rho i j) <= / 4) ->
    exists a, a_cross_assoc lu max_iter tol p (@state_new RNum t v moles) = Some a /\
      close_to_law p t v moles (tol_error p v moles tol) a.
  Proof.
    intros HK Ht Hb Hw.
    assert (Wk : weak n De A B Ro).
    { intros i Hi. rewrite sum_a, sum_b. apply Hw. apply (comp_lt p W); auto. }
    apply (eos_invariant (weak_inv n De A B Ro) K); auto.
    - apply weak_inv_start; auto.
    - intros j x (L & P & _). split; auto. intros i Hi. destruct (P i Hi). split; lra.
    - intros j x x'. apply weak_inv_step; auto.
    - intros x Hx. eapply Rle_lt_trans; [apply (weak_inv_norm n De A B Ro HDe HAB Wk K x Hx) | exact Hb].
  Qed.

  (** Equal sites: every site would form [d] bonds when all sites are free (for example copies of
      one component with as many A as B sites), however strong the association is. *)
  Theorem C13_equal_sites K max_iter tol d : (S K < max_iter)%nat -> 0 < tol < 1 -> 0 <= d <= 4 ^ K ->
    sqrt (2 * INR n) * (d * (1 + 2 * d) / 4 ^ K) < tol ->
    (forall i, (i < N X)%nat -> Kab X i <> 0 -> (Sum j < N X, rho j * Nb X j * Delta X t rho i j) = d /\
                                               (Sum j < N X, rho j * Na X j * Delta X t rho i j) = d) ->
    exists a, a_cross_assoc lu max_iter tol p (@state_new RNum t v moles) = Some a /\
      close_to_law p t v moles (tol_error p v moles tol) a.
  Proof.
    intros HK Ht Hdr Hb He.
    assert (Hu : forall i, (i < n)%nat -> (Sum j < n, Ro j * B j * De i j) = d /\ (Sum j < n, Ro j * A j * De i j) = d).
    { intros i Hi. rewrite sum_a, sum_b. apply He; [apply (comp_lt p W); auto | ].
      assert (In (c i) (p_assoc_comp p)) as I by (apply nth_In; rewrite <- (w_na _ W); auto).
      rewrite (w_ass _ W) in I at 1. apply filter_In in I. destruct I as [_ I]. apply nonzero_R in I. exact I. }
    apply (eos_invariant (uniform_inv n d) (S K)); auto.
    - apply uniform_inv_start.
    - intros j x. apply uniform_inv_pos.
    - intros j x x'. apply uniform_inv_step; auto; apply Hdr.
    - intros x Hx. eapply Rle_lt_trans; [apply (uniform_inv_norm n De A B Ro d (proj1 Hdr) Hu K x (proj2 Hdr) Hx) | exact Hb].
  Qed.
End Eos.

(** the default options: at most 50 steps and a tolerance of 1e-10 *)
Lemma sqrt_sites n : (n <= 1000)%nat -> sqrt (2 * INR n) <= 2000.
Proof.
  intros H. rewrite <- (sqrt_pow2 2000) by lra. apply sqrt_le_1_alt.
  apply le_INR in H. rewrite (INR_IZR_INZ 1000) in H. change (IZR (Z.of_nat 1000)) with 1000 in H. lra.
Qed.
Corollary C13_weak_default lu prs bin p t v moles : lu_exact lu -> from_records prs bin = Some p ->
  phys p -> assoc_phys p -> phys_state p t v moles -> (p_nassoc p <= 1000)%nat ->
  let X := mix_of p in
  let rho i := nth i moles 0 / v in
  / 2 ^ 52 <= Rho X rho ->
  (forall i, (i < N X)%nat -> (Sum j < N X, rho j * Nb X j * Delta X t rho i j) <= / 4 /\
                              (Sum j < N X, rho j * Na X j * Delta X t rho i j) <= / 4) ->
  exists a, a_cross_assoc lu 50 (/ 10 ^ 10) p (@state_new RNum t v moles) = Some a /\
    close_to_law p t v moles (tol_error p v moles (/ 10 ^ 10)) a.
Proof.
  intros Hlu Hp Hph Hap PS Hn X rho Hd Hw.
  apply (C13_weak_association lu Hlu prs bin p Hp Hph Hap t v moles PS Hd 8); auto; [lia | lra | ].
  pose proof (sqrt_sites _ Hn) as Hs.
  assert (P : 0 < (4 / 5) ^ (2 ^ 8) < / 10 ^ 16).
  { replace (2 ^ 8)%nat with 256%nat by reflexivity. split; [apply pow_lt; lra | ]. interval. }
  revert P. generalize ((4 / 5) ^ (2 ^ 8)). intros w P.
  apply Rle_lt_trans with (8 * 2000 * w); [apply Rmult_le_compat_r; lra | ]. lra.
Qed.
Corollary C13_equal_default lu prs bin p t v moles d : lu_exact lu -> from_records prs bin = Some p ->
  phys p -> assoc_phys p -> phys_state p t v moles -> (p_nassoc p <= 1000)%nat ->
  let X := mix_of p in
  let rho i := nth i moles 0 / v in
  / 2 ^ 52 <= Rho X rho -> 0 <= d <= 10 ^ 7 ->
  (forall i, (i < N X)%nat -> Kab X i <> 0 -> (Sum j < N X, rho j * Nb X j * Delta X t rho i j) = d /\
                                             (Sum j < N X, rho j * Na X j * Delta X t rho i j) = d) ->
  exists a, a_cross_assoc lu 50 (/ 10 ^ 10) p (@state_new RNum t v moles) = Some a /\
    close_to_law p t v moles (tol_error p v moles (/ 10 ^ 10)) a.
Proof.
  intros Hlu Hp Hph Hap PS Hn X rho Hd Hdr Hw.
  pose proof (sqrt_sites _ Hn) as Hs.
  assert (P : 4 * 10 ^ 28 <= 4 ^ 48) by interval.
  apply (C13_equal_sites lu Hlu prs bin p Hp Hph Hap t v moles PS Hd 48 50 (/ 10 ^ 10) d); auto; [lra | lra | ].
  assert (E : d * (1 + 2 * d) / 4 ^ 48 <= 10 ^ 7 * (1 + 2 * 10 ^ 7) / (4 * 10 ^ 28)).
  { unfold Rdiv. apply Rmult_le_compat; [apply Rmult_le_pos; lra | left; apply Rinv_0_lt_compat; lra | | apply Rinv_le_contravar; lra].
    apply Rmult_le_compat; lra. }
  assert (0 <= d * (1 + 2 * d) / 4 ^ 48) by (apply Rdiv_le_0_compat; [apply Rmult_le_pos; lra | lra]).
  apply Rle_lt_trans with (2000 * (10 ^ 7 * (1 + 2 * 10 ^ 7) / (4 * 10 ^ 28))); [apply Rmult_le_compat; auto; apply sqrt_pos | lra].
Qed.

(* non-trivial cases: two associating components (water and a copy of water) *)

Lemma ww_Rho v : 1000 <= v <= 10 ^ 6 -> / 2 ^ 52 <= Rho (mix_of ww) (fun i => nth i [1; 1] 0 / v).
Proof.
  intros Hv. unfold Rho. cbn. assert (/ 10 ^ 6 <= 1 / v) by (unfold Rdiv; rewrite Rmult_1_l; apply Rinv_le_contravar; lra). lra.
Qed.
Lemma ww_bonds v i : 1000 <= v <= 10 ^ 6 -> (i < N (mix_of ww))%nat ->
  let rho i := nth i [1; 1] 0 / v in
  (Sum j < N (mix_of ww), rho j * Nb (mix_of ww) j * Delta (mix_of ww) 350 rho i j) = 2 * Delta (mix_of ww) 350 rho 0 0 / v /\
  (Sum j < N (mix_of ww), rho j * Na (mix_of ww) j * Delta (mix_of ww) 350 rho i j) = 2 * Delta (mix_of ww) 350 rho 0 0 / v.
Proof.
  intros Hv Hi rho. change (N (mix_of ww)) with 2%nat in *.
  assert (E : forall j, (j < 2)%nat -> Delta (mix_of ww) 350 rho i j = Delta (mix_of ww) 350 rho 0 0) by (intros j Hj; apply (ww_Delta v); auto).
  cbn [rsum seq]. rewrite !E by lia. generalize (Delta (mix_of ww) 350 rho 0 0). intros D.
  unfold rho. cbn [nth]. change (Na (mix_of ww) 0) with 1. change (Na (mix_of ww) 1) with 1.
  change (Nb (mix_of ww) 0) with 1. change (Nb (mix_of ww) 1) with 1. split; field; lra.
Qed.

Example C13_weak_case : exists a, a_cross_assoc gauss_lu 50 (/ 10 ^ 10) ww (@state_new RNum 350 (10 ^ 6) [1; 1]) = Some a /\
  close_to_law ww 350 (10 ^ 6) [1; 1] (tol_error ww (10 ^ 6) [1; 1] (/ 10 ^ 10)) a.
Proof.
  apply (C13_weak_default gauss_lu _ _ ww 350 (10 ^ 6) [1; 1] gauss_lu_exact ww_ok ww_phys ww_assoc (ww_state (10 ^ 6) ltac:(lra))).
  - rewrite ww_nassoc. lia.
  - apply ww_Rho. lra.
  - intros i Hi. destruct (ww_bonds (10 ^ 6) i ltac:(lra) Hi) as [-> ->].
    pose proof (ww_Delta_bounds (10 ^ 6) ltac:(lra)) as H. split; lra.
Qed.
Example C13_equal_case : exists a, a_cross_assoc gauss_lu 50 (/ 10 ^ 10) ww (@state_new RNum 350 1000 [1; 1]) = Some a /\
  close_to_law ww 350 1000 [1; 1] (tol_error ww 1000 [1; 1] (/ 10 ^ 10)) a.
Proof.
  pose proof (ww_Delta_bounds 1000 ltac:(lra)) as H.
  apply (C13_equal_default gauss_lu _ _ ww 350 1000 [1; 1] (2 * Delta (mix_of ww) 350 (fun i => nth i [1; 1] 0 / 1000) 0 0 / 1000)
    gauss_lu_exact ww_ok ww_phys ww_assoc (ww_state 1000 ltac:(lra))).
  - rewrite ww_nassoc. lia.
  - apply ww_Rho. lra.
  - lra.
  - intros i Hi _. apply (ww_bonds 1000 i ltac:(lra) Hi).
Qed.

Print Assumptions C13_invariant.
Print Assumptions C13_weak_association.
Print Assumptions C13_equal_sites.
Print Assumptions C13_weak_default.
Print Assumptions C13_equal_default.
