(** The cross-association contribution against the mass-action law of the publications. *)
From Coq Require Import ZArith QArith Reals Lra Lia List Arith Bool.
From Coquelicot Require Import Coquelicot.
From Verif Require Import Num RNum RSum Tables M_Params F_Params M_Eos Spec F_Spec F_SpecAssoc F_Contrib
  F_MassAction F_MassAction2 F_Newton F_Gauss F_NewtonR.
Import ListNotations.
Local Open Scope R_scope.

(* ------------------------------------------------------------ the driver loop, any number type *)

Section Loop.
  Context {K : Num}.
  Notation T := (car K).
  Variable step : list T -> res (list T * bool).
  Notation loop := (newton_loop step).

  Definition shift {A} (a : A) (y : nat -> A) (j : nat) : A := match j with O => a | S j => y j end.

  Lemma loop_ok m x z : loop (S m) x = Ok z ->
    exists k (y : nat -> list T), (k <= m)%nat /\ y O = x /\
      (forall j, (j < k)%nat -> step (y j) = Ok (y (S j), false)) /\
      step (y k) = Ok (y (S k), true) /\ y (S k) = z.
  Proof.
    revert x. induction m as [ | m IH]; intros x H.
    - simpl in H. destruct (step x) as [[x' [ | ]] | e] eqn:E; try discriminate.
      injection H as <-. exists 0%nat, (shift x (fun _ => x')). repeat split; auto. intros; lia.
    - remember (S m) as m1. simpl in H. destruct (step x) as [[x' [ | ]] | e] eqn:E; try discriminate.
      + injection H as <-. exists 0%nat, (shift x (fun _ => x')). repeat split; auto; intros; lia.
      + subst m1. destruct (IH x' H) as (k & y & Hk & Y0 & Yj & Yk & Yz).
        exists (S k), (shift x y). split; [lia | ]. split; [reflexivity | ].
        split; [ | split; auto].
        intros [ | j] Hj; simpl; [rewrite Y0; auto | apply Yj; lia].
  Qed.

  Lemma loop_ok_conv m x z k (y : nat -> list T) : (k <= m)%nat -> y O = x ->
    (forall j, (j < k)%nat -> step (y j) = Ok (y (S j), false)) ->
    step (y k) = Ok (y (S k), true) -> y (S k) = z -> loop (S m) x = Ok z.
  Proof.
    revert x k y. induction m as [ | m IH]; intros x k y Hk Y0 Yj Yk Yz.
    - replace k with 0%nat in * by lia. rewrite <- Y0. simpl. rewrite Yk, Yz. auto.
    - destruct k as [ | k].
      + rewrite <- Y0. simpl. rewrite Yk, Yz. auto.
      + rewrite <- Y0. remember (S m) as m1. simpl. rewrite (Yj 0%nat) by lia. subst m1.
        apply (IH (y 1%nat) k (fun j => y (S j))); auto; try lia.
        intros j Hj. apply Yj. lia.
  Qed.

  Lemma loop_err m x e : loop (S m) x = Err e ->
    exists k (y : nat -> list T), (k <= m)%nat /\ y O = x /\
      (forall j, (j < k)%nat -> step (y j) = Ok (y (S j), false)) /\
      (step (y k) = Err e \/ k = m /\ e = NotConverged /\ step (y k) = Ok (y (S k), false)).
  Proof.
    revert x. induction m as [ | m IH]; intros x H.
    - simpl in H. destruct (step x) as [[x' [ | ]] | e'] eqn:E; try discriminate.
      + injection H as <-. exists 0%nat, (shift x (fun _ => x')). split; [lia | ]. split; [reflexivity | ]. split; [intros; lia | ].
        right. split; [reflexivity | ]. split; auto.
      + injection H as <-. exists 0%nat, (fun _ => x). split; [lia | ]. split; [reflexivity | ]. split; [intros; lia | auto].
    - remember (S m) as m1. simpl in H. destruct (step x) as [[x' [ | ]] | e'] eqn:E; try discriminate.
      + subst m1. destruct (IH x' H) as (k & y & Hk & Y0 & Yj & Yk).
        exists (S k), (shift x y). split; [lia | ]. split; [reflexivity | ]. split.
        * intros [ | j] Hj; simpl; [rewrite Y0; auto | apply Yj; lia].
        * destruct Yk as [Yk | (-> & -> & Yk)]; [left; auto | right; auto].
      + injection H as <-. exists 0%nat, (fun _ => x). split; [lia | ]. split; [reflexivity | ]. split; [intros; lia | auto].
  Qed.

  Lemma loop_err_conv m x (y : nat -> list T) : y O = x ->
    (forall j, (j <= m)%nat -> step (y j) = Ok (y (S j), false)) -> loop (S m) x = Err NotConverged.
  Proof.
    revert x y. induction m as [ | m IH]; intros x y Y0 Yj.
    - rewrite <- Y0. simpl. rewrite (Yj 0%nat) by lia. auto.
    - rewrite <- Y0. remember (S m) as m1. simpl. rewrite (Yj 0%nat) by lia. subst m1.
      apply (IH (y 1%nat) (fun j => y (S j))); auto. intros j Hj. apply Yj. lia.
  Qed.
End Loop.

(* ------------------------------------------------------------ association sites *)

(** [n] associating species, strengths [delta i j], numbers of sites [na], [nb], densities [rho];
    a list of 2n fractions: those of the A sites followed by those of the B sites *)
Section Sites.
  Variables (n : nat) (delta : nat -> nat -> R) (na nb rho : nat -> R).
  Definition fa (x : list R) (i : nat) : R := nth i x 0.
  Definition fb (x : list R) (i : nat) : R := nth (n + i) x 0.
  Definition bonds_a (x : list R) (i : nat) : R := Sum j < n, rho j * nb j * fb x j * delta i j.
  Definition bonds_b (x : list R) (i : nat) : R := Sum j < n, rho j * na j * fa x j * delta i j.
  Definition all_positive (x : list R) : Prop := forall i, (i < n)%nat -> 0 < fa x i /\ 0 < fb x i.
  Definition no_zero (x : list R) : Prop := forall i, (i < n)%nat -> fa x i <> 0 /\ fb x i <> 0.
  (** law of mass action *)
  Definition site_law (x : list R) : Prop := length x = (2 * n)%nat /\ all_positive x /\
    forall i, (i < n)%nat -> fa x i * (1 + bonds_a x i) = 1 /\ fb x i * (1 + bonds_b x i) = 1.
  (** its residual norm *)
  Definition residual_norm (x : list R) : R :=
    sqrt ((Sum i < n, (1 / fa x i - 1 - bonds_a x i) ^ 2) + (Sum i < n, (1 / fb x i - 1 - bonds_b x i) ^ 2)).
  (** Newton's method: [x'] solves the mass-action equations linearised around [x] *)
  Definition newton_update (x x' : list R) : Prop := length x' = (2 * n)%nat /\
    forall i, (i < n)%nat ->
      fa x' i * (1 + bonds_a x i) + fa x i * (bonds_a x' i - bonds_a x i) = 1 /\
      fb x' i * (1 + bonds_b x i) + fb x i * (bonds_b x' i - bonds_b x i) = 1.
  (** Helmholtz energy density of given fractions *)
  Definition site_energy (x : list R) : R :=
    Sum i < n, rho i * (na i * fx (fa x i) + nb i * fx (fb x i)).
End Sites.

Section SitesBridge.
  Variables (n : nat) (delta : list (list R)) (na nb rho : list R).
  Notation D := (fun i j => @ix2 RNum delta i j).
  Notation f l := (fun i => @ix RNum l i).
  Notation N := (n + n)%nat.

  Lemma sites_a (x : list R) k : (k < n)%nat ->
    sites n delta na nb rho (fun l => nth l x 0) k = bonds_a n D (f nb) (f rho) x k.
  Proof.
    intros Hk. rewrite <- ca_row_R. rewrite (ca_row_a (K := RNum) RNum_ring) by auto. rewrite nsumi_R.
    apply Sum_ext. intros j Hj. unfold fb. rn. ring.
  Qed.
  Lemma sites_b (x : list R) k : (k < n)%nat ->
    sites n delta na nb rho (fun l => nth l x 0) (n + k) = bonds_b n D (f na) (f rho) x k.
  Proof.
    intros Hk. rewrite <- ca_row_R. rewrite (ca_row_b (K := RNum) RNum_ring) by lia. rewrite nsumi_R.
    replace (n + k - n)%nat with k by lia.
    apply Sum_ext. intros j Hj. unfold fa. rn. ring.
  Qed.

  Lemma split_sites (P : nat -> Prop) : (forall k, (k < N)%nat -> P k) <-> (forall i, (i < n)%nat -> P i /\ P (n + i)%nat).
  Proof.
    split.
    - intros H i Hi. split; apply H; lia.
    - intros H k Hk. destruct (Nat.lt_ge_cases k n) as [L | L]; [apply H; auto | ].
      replace k with (n + (k - n))%nat by lia. apply H. lia.
  Qed.

  Lemma from_halves (P : nat -> Prop) : (forall i, (i < n)%nat -> P i /\ P (n + i)%nat) -> forall k, (k < N)%nat -> P k.
  Proof. apply split_sites. Qed.

  Lemma exact_law x : exact n delta na nb rho x <-> site_law n D (f na) (f nb) (f rho) x.
  Proof.
    unfold exact, site_law, solves, all_positive. replace (2 * n)%nat with N by lia.
    rewrite (split_sites (fun k => 0 < nth k x 0 /\ nth k x 0 * (1 + row N (Dm n delta na nb rho) (fun l => nth l x 0) k) = 1)).
    split.
    - intros [L H]. split; auto. split.
      + intros i Hi. destruct (H i Hi) as [[A _] [B _]]. split; auto.
      + intros i Hi. destruct (H i Hi) as [[_ A] [_ B]].
        fold (sites n delta na nb rho) in A, B. rewrite sites_a in A by auto. rewrite sites_b in B by auto. auto.
    - intros (L & P & H). split; auto. intros i Hi. destruct (P i Hi), (H i Hi). fold (sites n delta na nb rho).
      rewrite sites_a, sites_b by auto. auto.
  Qed.

  Lemma Sum_app_nn m k (g : nat -> R) : (Sum i < m + k, g i) = (Sum i < m, g i) + (Sum i < k, g (m + i)%nat).
  Proof.
    induction k as [ | k IH].
    - rewrite Nat.add_0_r. simpl. ring.
    - rewrite Nat.add_succ_r, !Sum_S, IH. ring.
  Qed.

  Lemma resid_norm_spec x : resid_norm n delta na nb rho x = residual_norm n D (f na) (f nb) (f rho) x.
  Proof.
    unfold resid_norm, residual_norm. f_equal. rewrite Sum_app_nn. f_equal; apply Sum_ext; intros i Hi; unfold resid.
    - rewrite sites_a by auto. unfold fa. unfold Rdiv. ring.
    - rewrite sites_b by auto. unfold fb. unfold Rdiv. ring.
  Qed.

  Lemma energy_spec x : @ca_energy RNum n na nb rho x = site_energy n (f na) (f nb) (f rho) x.
  Proof. rewrite ca_energy_R. reflexivity. Qed.

  Lemma update_spec (lu : lu_solver RNum) tol (x x' : list R) b : lu_exact lu -> length x = (2 * n)%nat ->
    @newton_step RNum lu n delta na nb rho tol x = Ok (x', b) ->
    (b = true <-> residual_norm n D (f na) (f nb) (f rho) x < tol) /\
    (no_zero n x -> newton_update n D (f na) (f nb) (f rho) x x').
  Proof.
    intros Hlu Lx E. assert (Lx' : length x = N) by lia.
    rewrite <- resid_norm_spec. split.
    - unfold newton_step in E. destruct (lu _ _); [ | discriminate]. injection E as _ <-.
      change (Rltb (@norm RNum (map nre (@ca_grad RNum n delta na nb rho x))) tol = true <-> resid_norm n delta na nb rho x < tol).
      rewrite norm_grad, Rltb_true by auto. tauto.
    - intros Hx. assert (Hx0 : forall k, (k < N)%nat -> nth k x 0 <> 0) by (apply (from_halves (fun k => nth k x 0 <> 0)); exact Hx).
      destruct (step_ok lu n delta na nb rho tol Hlu x x' b Lx' Hx0 E) as (L' & _ & _ & S & _). cbv zeta in S.
      split; [lia | ].
      assert (S' : forall k, (k < N)%nat -> nth k x' 0 * (1 + sites n delta na nb rho (fun l => nth l x 0) k)
         + nth k x 0 * (sites n delta na nb rho (fun l => nth l x' 0) k - sites n delta na nb rho (fun l => nth l x 0) k) = 1).
      { intros k Hk. specialize (S k Hk).
        assert (Es : sites n delta na nb rho (fun l => nth l x 0 - nth l x' 0) k
           = sites n delta na nb rho (fun l => nth l x 0) k - sites n delta na nb rho (fun l => nth l x' 0) k).
        { unfold sites, row. rewrite <- rsum_minus. apply rsum_ext. intros; ring. }
        rewrite Es in S. lra. }
      intros i Hi. pose proof (S' i ltac:(lia)) as A. pose proof (S' (n + i)%nat ltac:(lia)) as B. rewrite !sites_a in A by auto. rewrite !sites_b in B by auto. auto.
  Qed.
End SitesBridge.

(* ------------------------------------------------------------ the published law over all components *)

Section SpecLaw.
  Variables (X : mixture) (t : R) (rho : nat -> R).
  Hypothesis HDel : forall i j, (i < N X)%nat -> (j < N X)%nat -> 0 <= Delta X t rho i j.
  Hypothesis Hrho : forall i, (i < N X)%nat -> 0 <= rho i.
  Hypothesis HNa : forall i, (i < N X)%nat -> 0 <= Na X i /\ 0 <= Nb X i.

  Definition all_sites (xa xb : nat -> R) (k : nat) : R := if (k <? N X)%nat then xa k else xb (k - N X)%nat.
  Definition spec_D (k l : nat) : R :=
    if (k <? N X)%nat then if (l <? N X)%nat then 0 else rho (l - N X)%nat * Nb X (l - N X)%nat * Delta X t rho k (l - N X)
    else if (l <? N X)%nat then rho l * Na X l * Delta X t rho (k - N X) l else 0.

  Lemma spec_D_nonneg k l : (k < N X + N X)%nat -> (l < N X + N X)%nat -> 0 <= spec_D k l.
  Proof.
    intros Hk Hl. unfold spec_D. destruct (Nat.ltb_spec k (N X)), (Nat.ltb_spec l (N X)); try lra.
    - apply Rmult_le_pos; [apply Rmult_le_pos; [apply Hrho | apply HNa] | apply HDel]; lia.
    - apply Rmult_le_pos; [apply Rmult_le_pos; [apply Hrho | apply HNa] | apply HDel]; lia.
  Qed.

  Lemma spec_row_a x i : (i < N X)%nat ->
    row (N X + N X) spec_D x i = Sum j < N X, rho j * Nb X j * x (N X + j)%nat * Delta X t rho i j.
  Proof.
    intros Hi. unfold row. rewrite Sum_app_nn, rsum_zero, Rplus_0_l.
    - apply Sum_ext. intros j Hj. unfold spec_D. rewrite (proj2 (Nat.ltb_lt i (N X))) by auto.
      rewrite (proj2 (Nat.ltb_ge (N X + j) (N X))) by lia. replace (N X + j - N X)%nat with j by lia. ring.
    - intros j Hj. apply seq_in in Hj. unfold spec_D. rewrite (proj2 (Nat.ltb_lt i (N X))), (proj2 (Nat.ltb_lt j (N X))) by auto. ring.
  Qed.
  Lemma spec_row_b x i : (i < N X)%nat ->
    row (N X + N X) spec_D x (N X + i) = Sum j < N X, rho j * Na X j * x j * Delta X t rho i j.
  Proof.
    intros Hi. unfold row. rewrite Sum_app_nn, (rsum_zero _ (fun k => spec_D (N X + i) (N X + k) * _)), Rplus_0_r.
    - apply Sum_ext. intros j Hj. unfold spec_D. rewrite (proj2 (Nat.ltb_ge (N X + i) (N X))) by lia.
      rewrite (proj2 (Nat.ltb_lt j (N X))) by lia. replace (N X + i - N X)%nat with i by lia. ring.
    - intros j Hj. apply seq_in in Hj. unfold spec_D. rewrite (proj2 (Nat.ltb_ge (N X + i) (N X))), (proj2 (Nat.ltb_ge (N X + j) (N X))) by lia. ring.
  Qed.

  Theorem spec_law_exists : exists xa xb, mass_action X t rho xa xb /\
    forall i, (i < N X)%nat -> 0 < xa i <= 1 /\ 0 < xb i <= 1.
  Proof.
    destruct (solves_exists (N X + N X) spec_D spec_D_nonneg) as (x & Hx).
    pose proof (solves_le1 _ _ spec_D_nonneg x Hx) as L1.
    exists x, (fun i => x (N X + i)%nat). split.
    - intros i Hi. destruct (Hx i) as [_ A]; [lia | ]. destruct (Hx (N X + i)%nat) as [_ B]; [lia | ].
      rewrite spec_row_a in A by auto. rewrite spec_row_b in B by auto. auto.
    - intros i Hi. repeat split; try apply Hx; try apply L1; lia.
  Qed.

  Lemma law_solves xa xb : mass_action X t rho xa xb -> (forall i, (i < N X)%nat -> 0 < xa i /\ 0 < xb i) ->
    solves (N X + N X) spec_D (all_sites xa xb).
  Proof.
    intros H P. refine (from_halves (N X) (fun k => 0 < all_sites xa xb k /\ all_sites xa xb k * (1 + row (N X + N X) spec_D (all_sites xa xb) k) = 1) _).
    intros i Hi. destruct (H i Hi) as [A B]. destruct (P i Hi) as [Pa Pb].
    rewrite spec_row_a, spec_row_b by auto.
    assert (Ea : forall j, (j < N X)%nat -> all_sites xa xb j = xa j).
    { intros j Hj. unfold all_sites. rewrite (proj2 (Nat.ltb_lt j (N X))) by auto. auto. }
    assert (Eb : forall j, all_sites xa xb (N X + j) = xb j).
    { intros j. unfold all_sites. rewrite (proj2 (Nat.ltb_ge (N X + j) (N X))) by lia. f_equal. lia. }
    rewrite Ea, Eb by auto.
    rewrite (Sum_ext _ (fun j => rho j * Nb X j * all_sites xa xb (N X + j) * Delta X t rho i j)
      (fun j => rho j * Nb X j * xb j * Delta X t rho i j)) by (intros; rewrite Eb; auto).
    rewrite (Sum_ext _ (fun j => rho j * Na X j * all_sites xa xb j * Delta X t rho i j)
      (fun j => rho j * Na X j * xa j * Delta X t rho i j)) by (intros; rewrite Ea; auto). auto.
  Qed.

  Theorem spec_law_unique xa xb ya yb : mass_action X t rho xa xb -> mass_action X t rho ya yb ->
    (forall i, (i < N X)%nat -> 0 < xa i /\ 0 < xb i) -> (forall i, (i < N X)%nat -> 0 < ya i /\ 0 < yb i) ->
    forall i, (i < N X)%nat -> xa i = ya i /\ xb i = yb i.
  Proof.
    intros Hx Hy Px Py.
    pose proof (solves_unique _ _ spec_D_nonneg _ _ (law_solves _ _ Hx Px) (law_solves _ _ Hy Py)) as U.
    intros i Hi. pose proof (U i ltac:(lia)) as A. pose proof (U (N X + i)%nat ltac:(lia)) as B.
    unfold all_sites in A, B. rewrite (proj2 (Nat.ltb_lt i (N X))) in A by auto.
    rewrite (proj2 (Nat.ltb_ge (N X + i) (N X))) in B by lia. replace (N X + i - N X)%nat with i in B by lia. auto.
  Qed.
End SpecLaw.

(* ------------------------------------------------------------ the contribution *)

(** association parameters of physically meaningful records *)
Definition assoc_phys (p : params RNum) : Prop := forall i, (i < length (p_m p))%nat ->
  0 <= @ix RNum (p_kappa_ab p) i /\ 0 <= @ix RNum (p_epsilon_k_ab p) i /\
  0 <= @ix RNum (p_na p) i /\ 0 <= @ix RNum (p_nb p) i.

Section Cross.
  Variable p : params RNum.
  Hypothesis W : wfp p.
  Hypothesis Hph : phys p.
  Hypothesis Hap : assoc_phys p.
  Notation X := (mix_of p).
  Notation n := (length (p_m p)).
  Notation NA := (p_nassoc p).
  Variables (t v : R) (moles : list R).
  Hypothesis PS : phys_state p t v moles.
  Notation s := (@state_new RNum t v moles).
  Notation rho := (fun i => nth i moles 0 / v).
  Definition comp (i : nat) : nat := nth i (p_assoc_comp p) 0%nat.

  Lemma Delta_nonneg i j : (i < n)%nat -> (j < n)%nat -> 0 <= Delta X t rho i j.
  Proof.
    intros Hi Hj. unfold Delta.
    pose proof (D_pos p Hph t v moles PS i Hi) as Di_. pose proof (D_pos p Hph t v moles PS j Hj) as Dj_.
    pose proof (Zeta_pos p Hph t v moles PS 2) as Z2. pose proof (Zeta3_lt1 p t v moles PS) as Z3.
    destruct (Hph i Hi) as (_ & Si & _). destruct (Hph j Hj) as (_ & Sj & _).
    destruct (Hap i Hi) as (Ki & Ei & _). destruct (Hap j Hj) as (Kj & Ej & _).
    assert (St : 0 < t) by apply (ps_t _ _ _ _ PS).
    assert (Sij_pos : 0 < Sij X i j) by (unfold Sij; mx; lra).
    assert (G : 0 <= Gij X t rho i j).
    { unfold Gij. set (D := Di X t i * Di X t j / (Di X t i + Di X t j)).
      assert (0 < D) by (apply Rdiv_lt_0_compat; [apply Rmult_lt_0_compat | ]; lra).
      set (z := 1 - Zeta X t rho 3) in *. assert (0 < z) by (unfold z; lra).
      set (z2 := Zeta X t rho 2) in *.
      assert (0 < 1 / z) by (apply Rdiv_lt_0_compat; lra).
      assert (0 < 3 * z2 / z ^ 2) by (apply Rdiv_lt_0_compat; [lra | apply pow_lt; auto]).
      assert (0 < 2 * z2 ^ 2 / z ^ 3) by (apply Rdiv_lt_0_compat; [ | apply pow_lt; auto]; apply Rmult_lt_0_compat; [lra | apply pow_lt; auto]).
      assert (0 < D ^ 2) by (apply pow_lt; auto).
      assert (0 < D * (3 * z2 / z ^ 2)) by (apply Rmult_lt_0_compat; auto).
      assert (0 < D ^ 2 * (2 * z2 ^ 2 / z ^ 3)) by (apply Rmult_lt_0_compat; auto). lra. }
    assert (E : 0 <= exp ((Eab X i + Eab X j) / 2 / t) - 1).
    { change (Eab X i) with (@ix RNum (p_epsilon_k_ab p) i). change (Eab X j) with (@ix RNum (p_epsilon_k_ab p) j).
      assert (0 <= (@ix RNum (p_epsilon_k_ab p) i + @ix RNum (p_epsilon_k_ab p) j) / 2 / t).
      { apply Rmult_le_pos; [lra | left; apply Rinv_0_lt_compat; auto]. }
      pose proof (exp_ineq1_le ((@ix RNum (p_epsilon_k_ab p) i + @ix RNum (p_epsilon_k_ab p) j) / 2 / t)). lra. }
    apply Rmult_le_pos; auto. apply Rmult_le_pos; [apply Rmult_le_pos; auto; left; apply pow_lt; auto | ].
    unfold Kapij. apply Rmult_le_pos; [apply sqrt_pos | ]. apply pow_le.
    apply Rmult_le_pos; [apply sqrt_pos | left; apply Rinv_0_lt_compat; auto].
  Qed.

  Lemma Delta_nonassoc i j : Kab X i = 0 \/ Kab X j = 0 -> Delta X t rho i j = 0.
  Proof.
    intros H. unfold Delta, Kapij. assert (E : Kab X i * Kab X j = 0) by (destruct H as [-> | ->]; ring).
    rewrite E, sqrt_0. ring.
  Qed.

  Lemma comp_lt i : (i < NA)%nat -> (comp i < n)%nat.
  Proof.
    intros Hi. assert (I : In (comp i) (p_assoc_comp p)) by (apply nth_In; rewrite <- (w_na _ W); auto).
    rewrite (w_ass _ W) in I at 1. apply filter_In in I. destruct I as [I _]. apply seq_in in I. auto.
  Qed.

  (** sums over the associating components are sums over all components *)
  Lemma sum_assoc (g : nat -> R) : (forall j, (j < n)%nat -> Kab X j = 0 -> g j = 0) ->
    (Sum j < NA, g (comp j)) = Sum j < n, g j.
  Proof.
    intros H. rewrite (w_na _ W).
    transitivity (rsum (p_assoc_comp p) g); [symmetry; apply (rsum_nth (p_assoc_comp p) 0%nat) | ].
    rewrite (w_ass _ W). apply rsum_filter. intros j Hj E. apply seq_in in Hj. apply H; auto.
    destruct (Req_EM_T (Kab X j) 0) as [ | Hn]; auto. apply nonzero_R in Hn.
    change (@nonzero RNum (@ix RNum (p_kappa_ab p) j) = true) in Hn. congruence.
  Qed.

  Definition n2_ := assoc_n2 p t (s_rho s).
  Definition n3i_ := @nrecip RNum (@nadd RNum (@nopp RNum (packing p t (s_rho s))) (@nlit RNum 1%Q)).
  Definition delta_ : list (list R) := ca_delta p t (seg_radius p t) n2_ n3i_ (@n1 RNum).
  Definition na_ : list R := ca_sel p (p_na p).
  Definition nb_ : list R := ca_sel p (p_nb p).
  Definition rho_ : list R := ca_sel p (s_rho s).

  Lemma delta_ix i j : (i < NA)%nat -> (j < NA)%nat -> @ix2 RNum delta_ i j = Delta X t rho (comp i) (comp j).
  Proof.
    intros Hi Hj. unfold delta_, ca_delta. rewrite ix2_mk2 by auto. unfold n2_, n3i_.
    assert (Lm : length moles = n) by apply (ps_len _ _ _ _ PS).
    rewrite (assoc_n2_spec p W t v moles Lm), (packing_spec p W t v moles Lm).
    rn. unfold Eta.
    change (fun i : nat => nth i moles 0 / v) with (fun i => nth i moles 0 / v).
    replace (- Zeta X t rho 3 + 1) with (1 - Zeta X t rho 3) by ring.
    apply (association_strength_spec p W Hph t v moles); auto.
    - apply (ps_t _ _ _ _ PS).
    - apply comp_lt; auto.
    - apply comp_lt; auto.
    - pose proof (Zeta3_lt1 p t v moles PS). lra.
  Qed.
  Lemma na_ix i : (i < NA)%nat -> @ix RNum na_ i = Na X (comp i).
  Proof. intros Hi. unfold na_, ca_sel. rewrite ix_mk1 by auto. reflexivity. Qed.
  Lemma nb_ix i : (i < NA)%nat -> @ix RNum nb_ i = Nb X (comp i).
  Proof. intros Hi. unfold nb_, ca_sel. rewrite ix_mk1 by auto. reflexivity. Qed.
  Lemma rho_ix i : (i < NA)%nat -> @ix RNum rho_ i = rho (comp i).
  Proof.
    intros Hi. unfold rho_, ca_sel. rewrite ix_mk1 by auto.
    apply (s_rho_ix p t v moles (ps_len _ _ _ _ PS)). apply comp_lt; auto.
  Qed.
  Lemma coef_nonneg k l : (k < NA + NA)%nat -> (l < NA + NA)%nat -> 0 <= Dm NA delta_ na_ nb_ rho_ k l.
  Proof.
    apply Dm_nonneg.
    - intros i j Hi Hj. rewrite delta_ix by auto. apply Delta_nonneg; apply comp_lt; auto.
    - intros j Hj. change (nth j na_ 0) with (@ix RNum na_ j). change (nth j nb_ 0) with (@ix RNum nb_ j).
      change (nth j rho_ 0) with (@ix RNum rho_ j). rewrite na_ix, nb_ix, rho_ix by auto.
      destruct (Hap (comp j) (comp_lt j Hj)) as (_ & _ & A & B). split; [exact A | ]. split; [exact B | ].
      apply (rho_nonneg p t v moles PS). apply comp_lt; auto.
  Qed.

  (** fractions of all components -> list of fractions of the associating ones *)
  Definition pick_sites (xa xb : nat -> R) : list R := mk1 NA (fun i => xa (comp i)) ++ mk1 NA (fun i => xb (comp i)).
  Lemma pick_a xa xb i : (i < NA)%nat -> fa (pick_sites xa xb) i = xa (comp i).
  Proof. intros Hi. unfold fa, pick_sites. rewrite app_nth1, nth_mk1 by (rewrite ?mk1_length; auto). auto. Qed.
  Lemma pick_b xa xb i : (i < NA)%nat -> fb NA (pick_sites xa xb) i = xb (comp i).
  Proof.
    intros Hi. unfold fb, pick_sites. rewrite app_nth2, mk1_length by (rewrite mk1_length; lia).
    replace (NA + i - NA)%nat with i by lia. rewrite nth_mk1 by auto. auto.
  Qed.

  Theorem pick_exact xa xb : mass_action X t rho xa xb -> (forall i, (i < n)%nat -> 0 < xa i /\ 0 < xb i) ->
    exact NA delta_ na_ nb_ rho_ (pick_sites xa xb).
  Proof.
    intros H P. apply exact_law. split; [unfold pick_sites; rewrite app_length, !mk1_length; lia | ]. split.
    - intros i Hi. rewrite pick_a, pick_b by auto. apply P, comp_lt; auto.
    - intros i Hi. rewrite pick_a, pick_b by auto. destruct (H (comp i) (comp_lt i Hi)) as [A B]. split.
      + eapply eq_trans; [ | exact A]. f_equal. f_equal. unfold bonds_a.
        rewrite (Sum_ext NA _ (fun j => (fun j => rho j * Nb X j * xb j * Delta X t rho (comp i) j) (comp j))).
        * apply (sum_assoc (fun j => rho j * Nb X j * xb j * Delta X t rho (comp i) j)). intros j Hj E. rewrite Delta_nonassoc by auto. ring.
        * intros j Hj. rewrite pick_b, delta_ix, nb_ix, rho_ix by auto. auto.
      + eapply eq_trans; [ | exact B]. f_equal. f_equal. unfold bonds_b.
        rewrite (Sum_ext NA _ (fun j => (fun j => rho j * Na X j * xa j * Delta X t rho (comp i) j) (comp j))).
        * apply (sum_assoc (fun j => rho j * Na X j * xa j * Delta X t rho (comp i) j)). intros j Hj E. rewrite Delta_nonassoc by auto. ring.
        * intros j Hj. rewrite pick_a, delta_ix, na_ix, rho_ix by auto. auto.
  Qed.

  (** non-associating components are never bonded *)
  Lemma nonassoc_one xa xb i : mass_action X t rho xa xb -> (i < n)%nat -> Kab X i = 0 -> xa i = 1 /\ xb i = 1.
  Proof.
    intros H Hi E. destruct (H i Hi) as [A B].
    rewrite rsum_zero in A by (intros; rewrite Delta_nonassoc by auto; ring).
    rewrite rsum_zero in B by (intros; rewrite Delta_nonassoc by auto; ring). lra.
  Qed.

  Theorem pick_energy xa xb : mass_action X t rho xa xb ->
    @ca_energy RNum NA na_ nb_ rho_ (pick_sites xa xb) = f_assoc_xx X rho xa xb.
  Proof.
    intros H. rewrite energy_spec. unfold site_energy, f_assoc_xx.
    rewrite (Sum_ext NA _ (fun i => (fun i => rho i * (Na X i * fx (xa i) + Nb X i * fx (xb i))) (comp i))).
    - apply (sum_assoc (fun i => rho i * (Na X i * fx (xa i) + Nb X i * fx (xb i)))).
      intros j Hj E. destruct (nonassoc_one xa xb j H Hj E) as [-> ->]. rewrite fx_1. ring.
    - intros i Hi. rewrite pick_a, pick_b, na_ix, nb_ix, rho_ix by auto. auto.
  Qed.

  Theorem law_exists : exists xa xb, mass_action X t rho xa xb /\
    forall i, (i < n)%nat -> 0 < xa i <= 1 /\ 0 < xb i <= 1.
  Proof.
    apply (spec_law_exists X t rho); intros.
    - apply Delta_nonneg; auto.
    - apply (rho_nonneg p t v moles PS); auto.
    - destruct (Hap i H) as (_ & _ & A & B). split; [exact A | exact B].
  Qed.

  (** one site fraction list, two components' energies: accuracy of an accepted solve *)
  Theorem cross_accuracy (lu : lu_solver RNum) tol x x' xa xb : lu_exact lu -> 0 < tol < 1 ->
    length x = (2 * NA)%nat -> all_positive NA x ->
    @newton_step RNum lu NA delta_ na_ nb_ rho_ tol x = Ok (x', true) ->
    mass_action X t rho xa xb -> (forall i, (i < n)%nat -> 0 < xa i <= 1 /\ 0 < xb i <= 1) ->
    let q := (1 + tol) / (1 - tol) ^ 2 in
    length x' = (2 * NA)%nat /\
    (forall i, (i < NA)%nat ->
       0 < fa x' i /\ fa x' i <= q * xa (comp i) /\ xa (comp i) <= q * fa x' i /\
       0 < fb NA x' i /\ fb NA x' i <= q * xb (comp i) /\ xb (comp i) <= q * fb NA x' i) /\
    Rabs (@ca_energy RNum NA na_ nb_ rho_ x' - f_assoc_xx X rho xa xb)
    <= 3 / 2 * (q - 1) * Sum i < n, rho i * (Na X i + Nb X i).
  Proof.
    intros Hlu Ht Lx Px E HM HB q.
    assert (HP : forall i, (i < n)%nat -> 0 < xa i /\ 0 < xb i) by (intros i Hi; destruct (HB i Hi); lra).
    pose proof (pick_exact xa xb HM HP) as Ex.
    assert (Lx' : length x = (NA + NA)%nat) by lia.
    assert (Px' : forall k, (k < NA + NA)%nat -> 0 < nth k x 0) by (apply (from_halves NA (fun k => 0 < nth k x 0)); exact Px).
    destruct (accepted_accurate lu NA delta_ na_ nb_ rho_ tol Hlu coef_nonneg x x' _ Lx' Px' Ht E Ex) as (L' & A).
    assert (Q1 : 1 <= q).
    { unfold q. apply Rmult_le_reg_r with ((1 - tol) ^ 2); [apply pow_lt; lra | ].
      unfold Rdiv. rewrite Rmult_assoc, Rinv_l by (apply pow_nonzero; lra). nra. }
    assert (qa : (1 + tol) / (1 - tol) <= q).
    { unfold q, Rdiv. apply Rmult_le_compat_l; [lra | ]. apply Rinv_le_contravar; [apply pow_lt; lra | nra]. }
    assert (qb : / (1 - tol) ^ 2 <= q).
    { unfold q, Rdiv. assert (0 < / (1 - tol) ^ 2) by (apply Rinv_0_lt_compat, pow_lt; lra). nra. }
    assert (Py : forall k, (k < NA + NA)%nat -> 0 < nth k (pick_sites xa xb) 0 <= 1).
    { apply (from_halves NA (fun k => 0 < nth k (pick_sites xa xb) 0 <= 1)). intros i Hi.
      pose proof (pick_a xa xb i Hi) as Ea. pose proof (pick_b xa xb i Hi) as Eb. unfold fa, fb in Ea, Eb.
      rewrite Ea, Eb. apply HB, comp_lt; auto. }
    assert (B : forall k, (k < NA + NA)%nat -> 0 < nth k x' 0 /\ nth k x' 0 <= q * nth k (pick_sites xa xb) 0 /\ nth k (pick_sites xa xb) 0 <= q * nth k x' 0).
    { intros k Hk. destruct (A k Hk) as (A1 & A2 & A3). destruct (Py k Hk). split; auto. split.
      - eapply Rle_trans; [exact A2 | apply Rmult_le_compat_r; lra].
      - eapply Rle_trans; [exact A3 | apply Rmult_le_compat_r; [left; exact A1 | exact qb]]. }
    split; [transitivity (NA + NA)%nat; [exact L' | lia] | ]. split.
    - intros i Hi. destruct (B i ltac:(lia)) as (B1 & B2 & B3). destruct (B (NA + i)%nat ltac:(lia)) as (B4 & B5 & B6).
      pose proof (pick_a xa xb i Hi) as Ea. pose proof (pick_b xa xb i Hi) as Eb. unfold fa, fb in *.
      rewrite Ea in B2, B3. rewrite Eb in B5, B6. auto 8.
    - rewrite <- (pick_energy xa xb HM).
      eapply Rle_trans; [apply (energy_close NA na_ nb_ rho_ x' (pick_sites xa xb) q Q1) | ].
      + intros j Hj. change (nth j na_ 0) with (@ix RNum na_ j). change (nth j nb_ 0) with (@ix RNum nb_ j).
        change (nth j rho_ 0) with (@ix RNum rho_ j). rewrite na_ix, nb_ix, rho_ix by auto.
        destruct (Hap (comp j) (comp_lt j Hj)) as (_ & _ & A0 & B0). split; [exact A0 | ]. split; [exact B0 | ].
        apply (rho_nonneg p t v moles PS). apply comp_lt; auto.
      + exact Py.
      + exact B.
      + apply Rmult_le_compat_l; [lra | ].
        rewrite (Sum_ext NA _ (fun i => (fun i => if Req_EM_T (Kab X i) 0 then 0 else rho i * (Na X i + Nb X i)) (comp i))).
        * rewrite (sum_assoc (fun i => if Req_EM_T (Kab X i) 0 then 0 else rho i * (Na X i + Nb X i))).
          -- apply rsum_le. intros i Hi. apply seq_in in Hi. destruct (Req_EM_T (Kab X i) 0); [ | lra].
             destruct (Hap i Hi) as (_ & _ & A0 & B0).
             apply Rmult_le_pos; [apply (rho_nonneg p t v moles PS); auto | ].
             change (Na X i) with (@ix RNum (p_na p) i). change (Nb X i) with (@ix RNum (p_nb p) i). lra.
          -- intros j Hj E0. destruct (Req_EM_T (Kab X j) 0); [auto | contradiction].
        * intros i Hi. change (nth i na_ 0) with (@ix RNum na_ i). change (nth i nb_ 0) with (@ix RNum nb_ i).
          change (nth i rho_ 0) with (@ix RNum rho_ i). rewrite na_ix, nb_ix, rho_ix by auto.
          cbv beta. destruct (Req_EM_T (Kab X (comp i)) 0) as [E0 | ]; auto. exfalso.
          assert (I : In (comp i) (p_assoc_comp p)) by (apply nth_In; rewrite <- (w_na _ W); auto).
          rewrite (w_ass _ W) in I at 1. apply filter_In in I. destruct I as [_ I]. apply nonzero_R in I. apply I. exact E0.
  Qed.
End Cross.
