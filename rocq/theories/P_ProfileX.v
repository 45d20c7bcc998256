(** C45 for several associating components: the functional's association term at the points of a
    density profile, with site fractions iterated from the previous point. *)
From Coq Require Import ZArith QArith Reals Lra Lia String List Bool.
From Coquelicot Require Import Coquelicot.
From Interval Require Import Tactic.
From Verif Require Import Num RNum RSum Tables M_Params F_Params M_Eos M_Dft M_Profile Spec SpecDft F_Spec F_SpecPolar F_SpecAssoc
  F_Contrib F_Newton F_Gauss F_MassAction F_MassAction2 F_NewtonR F_Cross Samples P_Params
  P_Assoc P_Assoc2 F_Dft F_Dft2 P_DftR P_DftD P_Profile P_Converge P_Dual3 P_Split P_DftX F_DftT F_DftT2.
Import ListNotations.
Local Open Scope R_scope.
Set Bullet Behavior "Strict Subproofs".
Notation length := List.length.

Lemma loop_mono {K : Num} (step : list (car K) -> res (list (car K) * bool)) k m x z : (k <= m)%nat -> newton_loop step (S k) x = Ok z -> newton_loop step (S m) x = Ok z.
Proof.
  revert m x. induction k as [ | k IH]; intros m x Hk H.
  - cbn [newton_loop] in *. destruct (step x) as [[x' [ | ]] | ]; try discriminate. exact H.
  - destruct m as [ | m]; [lia | ].
    change (match step x with Err e => Err e | Ok (x', true) => Ok x' | Ok (x', false) => newton_loop step (S k) x' end = Ok z) in H.
    change (match step x with Err e => Err e | Ok (x', true) => Ok x' | Ok (x', false) => newton_loop step (S m) x' end = Ok z).
    destruct (step x) as [[x' [ | ]] | ]; auto. apply IH; auto. lia.
Qed.

(* ------------------------------------------------------------------------- specification *)
(** a point of a profile: local densities and convolutions ([M_Profile.profile_wd]) *)
Definition grid_point : Type := (nat -> R) * (wf_shape -> R -> nat -> nat -> R).
Definition point_wd (p : params RNum) (t : R) (dim : nat) (g : grid_point) : list R :=
  profile_wd (assoc_weight_functions p t) (length (p_m p)) dim (fst g) (snd g).
Section Spec.
  Variables (p : params RNum) (t : R) (dim : nat) (g : grid_point).
  Notation X := (mix_of p). Notation c := (length (p_m p)).
  Notation n0 := (as_n0 p t (snd g)). Notation v2 := (as_v2 p t (snd g)). Notation n3 := (as_n3 p t (snd g)).
  (** packing below one, densities above the switch of the code, vector densities not larger than
      the scalar ones *)
  Definition dense : Prop :=
    n3 < 1 /\ (forall i, (i < c)%nat -> 1 / 10 ^ 9 < n0 i /\ 0 <= xi_i X t dim n0 v2 i) /\ 0 <= xi_s X t dim n0 v2.
  (** number density after the reduction by the vector densities *)
  Definition density : R := Sum i < c, n0 i * xi_i X t dim n0 v2 i.
  Definition law_at (xa xb : nat -> R) : Prop :=
    mass_action_d X t dim n0 v2 n3 xa xb /\ forall i, (i < c)%nat -> 0 < xa i <= 1 /\ 0 < xb i <= 1.
  Definition energy_at (xa xb : nat -> R) : R := f_assoc_d X t dim n0 v2 xa xb.
  Definition error_at (tol : R) : R :=
    3 / 2 * ((1 + tol) / (1 - tol) ^ 2 - 1) * Sum i < c, n0 i * xi_i X t dim n0 v2 i * (Na X i + Nb X i).
  (** no site would form more than 1/4 bonds if all sites were free *)
  Definition weak_at : Prop := forall i, (i < c)%nat ->
    (Sum j < c, n0 j * xi_i X t dim n0 v2 j * Nb X j * DeltaD X t dim n0 v2 n3 i j) <= / 4 /\
    (Sum j < c, n0 j * xi_i X t dim n0 v2 j * Na X j * DeltaD X t dim n0 v2 n3 i j) <= / 4.
End Spec.

Lemma eff_alg2 (S a r : R) : (S / - (a * a) + 1) * r = r * (1 - S / a ^ 2).
Proof. unfold Rdiv. rewrite Rinv_opp. replace (a ^ 2) with (a * a) by ring. ring. Qed.

Lemma cross_step (lu : lu_solver RNum) (p : params RNum) (t : R) max_iter (tol : R) (x x' : list R) (w : list R) (ws : list (list R)) (a : R) l :
  @cross_association RNum lu p t (da_rho0 p t w) (seg_radius p t) (da_n2 p t w) (da_n3i p w) (da_xi p t w) max_iter tol (Some x) = (Ok a, Some x') ->
  @phi_assoc_cross RNum lu p t max_iter tol x' ws = Ok l -> @phi_assoc_cross RNum lu p t max_iter tol x (w :: ws) = Ok (a :: l).
Proof.
  intros E1 E2.
  change (match @cross_association RNum lu p t (da_rho0 p t w) (seg_radius p t) (da_n2 p t w) (da_n3i p w) (da_xi p t w) max_iter tol (Some x) with
    | (Err e, _) => Err e
    | (Ok a, x') => match @phi_assoc_cross RNum lu p t max_iter tol (unwrap_or x' x) ws with Ok l => Ok (a :: l) | Err e => Err e end
    end = Ok (a :: l)).
  rewrite E1. cbn [unwrap_or]. rewrite E2. reflexivity.
Qed.

Section Cross.
  Variables (prs : list (pure_record RNum)) (bin : list (list R)) (p : params RNum).
  Hypothesis Hp : from_records prs bin = Some p.
  Hypothesis Hph : phys p.
  Hypothesis Hap : assoc_phys p.
  Let W : wfp p := wfp_from_records prs bin p Hp.
  Notation X := (mix_of p). Notation c := (length (p_m p)). Notation m := (p_nassoc p).
  Variables (t : R) (dim : nat).
  Hypothesis Ht : 0 < t.
  Variable lu : lu_solver RNum.
  Hypothesis Hlu : lu_exact lu.

  (* ------------------------------------------------------------ any weighted densities *)
  Section At.
    Variable w : list R.
    Hypothesis Lw : length w = (c * (dim + 1) + 1)%nat.
    Hypothesis H3 : nth (c * (dim + 1)) w 0 < 1.
    Let De := fun i j => pair_strength p t dim w (comp p i) (comp p j).
    Let Ro := fun i => rho_eff p t (comp p i) dim w.
    Let A := fun i => Na X (comp p i).
    Let B := fun i => Nb X (comp p i).
    Let Es : forall i j, (i < m)%nat -> (j < m)%nat -> str p t (seg_radius p t) (da_n2 p t w) (da_n3i p w) (da_xi p t w) i j = De i j.
    Proof. intros i j Hi Hj. exact (strength_at prs bin p Hp Hph t dim w (comp p i) (comp p j) Ht (comp_lt p W i Hi) (comp_lt p W j Hj) Lw H3). Qed.
    Let Ed : forall i, (i < m)%nat -> den p (da_rho0 p t w) i = Ro i.
    Proof. intros i Hi. exact (rho_eff_at prs bin p Hp t dim w (comp p i) (comp_lt p W i Hi) Lw). Qed.
    Lemma total_at : rsum (da_rho0 p t w) (fun x : R => x) = rho_total p t dim w.
    Proof.
      unfold rho_total. rewrite (rsum_nth _ 0 (fun x => x)).
      assert (Ls : length (da_rho0 p t w) = c) by (unfold da_rho0; apply mk1_length).
      etransitivity; [exact (f_equal (fun k => rsum (seq 0 k) (fun i => nth i (da_rho0 p t w) 0)) Ls) | ].
      apply Sum_ext. intros i Hi. exact (rho_eff_at prs bin p Hp t dim w i Hi Lw).
    Qed.
    Hypothesis HDe : forall i j, (i < m)%nat -> (j < m)%nat -> 0 <= De i j.
    Hypothesis HRo : forall i, (i < m)%nat -> 0 <= Ro i.
    Let HAB : forall i, (i < m)%nat -> 0 <= A i /\ 0 <= B i /\ 0 <= Ro i.
    Proof. intros i Hi. destruct (Hap (comp p i) (comp_lt p W i Hi)) as (_ & _ & S1 & S2). split; [exact S1 | ]. split; [exact S2 | auto]. Qed.
    Notation cross := (@cross_association RNum lu p t (da_rho0 p t w) (seg_radius p t) (da_n2 p t w) (da_n3i p w) (da_xi p t w)).

    (** a positive run is what the routine computes *)
    Lemma run_cross max_iter tol k y : / 2 ^ 52 <= rho_total p t dim w -> (k < max_iter)%nat -> point_run p t dim w tol k y ->
      cross max_iter tol (Some (y O)) = (Ok (point_energy p t dim w (y (S k))), Some (y (S k))).
    Proof.
      intros Hr Hk [[U1 [U2 U3]] Py]. rewrite <- total_at in Hr.
      assert (Es' : forall i j, (i < m)%nat -> (j < m)%nat -> De i j = str p t (seg_radius p t) (da_n2 p t w) (da_n3i p w) (da_xi p t w) i j) by (intros; symmetry; auto).
      assert (Ed' : forall i, (i < m)%nat -> Ro i = den p (da_rho0 p t w) i) by (intros; symmetry; auto).
      assert (Hs : forall i j, (i < m)%nat -> (j < m)%nat -> 0 <= str p t (seg_radius p t) (da_n2 p t w) (da_n3i p w) (da_xi p t w) i j) by (intros; rewrite Es by auto; auto).
      assert (Hn : forall i, (i < m)%nat -> 0 <= sa p i /\ 0 <= sb p i /\ 0 <= den p (da_rho0 p t w) i) by (intros i Hi; rewrite Ed by auto; exact (HAB i Hi)).
      destruct (C13_outcome lu Hlu p t (da_rho0 p t w) (seg_radius p t) (da_n2 p t w) (da_n3i p w) (da_xi p t w) Hs Hn (S k) tol (Some (y O)) y) as [Q _].
      - lia.
      - exact Hr.
      - apply U1. lia.
      - reflexivity.
      - intros j Hj. split; [apply Py; lia | ]. destruct (U1 j ltac:(lia)) as [_ Uj].
        refine (update_ext m De _ A B Ro _ _ _ Es' Ed' (Uj _)). intros i Hi. destruct (Py j ltac:(lia) i Hi). split; lra.
      - specialize (Q k (Nat.lt_succ_diag_r k)).
        assert (Q' : cross (S k) tol (Some (y O)) = (Ok (point_energy p t dim w (y (S k))), Some (y (S k)))).
        { rewrite Q.
          - f_equal. f_equal. apply Sum_ext. intros i Hi. rewrite Ed by auto. reflexivity.
          - intros j Hj. eapply Rle_trans; [exact (U2 j Hj) | ]. right. exact (norm_ext m De _ A B Ro _ (y j) Es' Ed').
          - eapply Rle_lt_trans; [right; symmetry; exact (norm_ext m De _ A B Ro _ (y k) Es' Ed') | exact U3]. }
        clear Q. rewrite <- Q'. destruct max_iter as [ | mi]; [lia | ].
        rewrite !(cross_unfold lu p t (da_rho0 p t w) (seg_radius p t) (da_n2 p t w) (da_n3i p w) (da_xi p t w)) in * by exact Hr.
        destruct (newton_loop _ (S k) _) as [x | e] eqn:EL; [ | discriminate].
        rewrite (loop_mono _ k mi _ x ltac:(lia) EL). reflexivity.
    Qed.
    Lemma run_accuracy tol k y z : 0 < tol < 1 -> point_run p t dim w tol k y -> point_law p t dim w z ->
      Rabs (point_energy p t dim w (y (S k)) - point_energy p t dim w z)
      <= 3 / 2 * ((1 + tol) / (1 - tol) ^ 2 - 1) * Sum i < m, Ro i * (A i + B i).
    Proof.
      intros Htol [[U1 [U2 U3]] Py] Hz.
      assert (Es' : forall i j, (i < m)%nat -> (j < m)%nat -> De i j = str p t (seg_radius p t) (da_n2 p t w) (da_n3i p w) (da_xi p t w) i j) by (intros; symmetry; auto).
      assert (Ed' : forall i, (i < m)%nat -> Ro i = den p (da_rho0 p t w) i) by (intros; symmetry; auto).
      assert (Hs : forall i j, (i < m)%nat -> (j < m)%nat -> 0 <= str p t (seg_radius p t) (da_n2 p t w) (da_n3i p w) (da_xi p t w) i j) by (intros; rewrite Es by auto; auto).
      assert (Hn : forall i, (i < m)%nat -> 0 <= sa p i /\ 0 <= sb p i /\ 0 <= den p (da_rho0 p t w) i) by (intros i Hi; rewrite Ed by auto; exact (HAB i Hi)).
      destruct (U1 k (le_n k)) as [Lk Uk].
      destruct (C13_accuracy lu Hlu p t (da_rho0 p t w) (seg_radius p t) (da_n2 p t w) (da_n3i p w) (da_xi p t w) Hs Hn tol (y k) (y (S k)) z Htol Lk (Py k (le_n k))) as [_ Q].
      - eapply Rle_lt_trans; [right; symmetry; exact (norm_ext m De _ A B Ro _ (y k) Es' Ed') | exact U3].
      - refine (update_ext m De _ A B Ro _ _ _ Es' Ed' (Uk _)). intros i Hi. destruct (Py k (le_n k) i Hi). split; lra.
      - eapply site_law_ext; [ | | exact Hz]; [exact Es' | ]. intros i Hi. split; [reflexivity | ]. split; [reflexivity | exact (Ed' i Hi)].
      - assert (Ee : forall x, site_energy m (sa p) (sb p) (den p (da_rho0 p t w)) x = point_energy p t dim w x).
        { intros x. apply Sum_ext. intros i Hi. rewrite Ed by auto. reflexivity. }
        rewrite !Ee in Q. eapply Rle_trans; [exact Q | ]. right. f_equal. apply Sum_ext. intros i Hi. rewrite Ed by auto. reflexivity.
    Qed.
    Lemma cross_dilute max_iter tol x : rho_total p t dim w < / 2 ^ 52 -> cross max_iter tol (Some x) = (Ok 0, Some (map (fun _ => 1) x)).
    Proof.
      intros H. rewrite <- total_at in H. unfold cross_association. rewrite nsum_R.
      assert (Eb : @nltb RNum (rsum (da_rho0 p t w) (fun x : R => x)) f_eps = true) by (apply Rltb_true; rewrite f_eps_R; eapply Rlt_le_trans; [exact H | right; lra]).
      match goal with |- (if ?b then _ else _) = _ => change b with (@nltb RNum (rsum (da_rho0 p t w) (fun x : R => x)) f_eps) end. rewrite Eb.
      assert (Z0 : @Num.n0 RNum = 0) by (unfold Num.n0; rn; reflexivity). assert (Z1 : @Num.n1 RNum = 1) by (unfold Num.n1; rn; reflexivity).
      assert (Zm : map (fun _ : R => @Num.n1 RNum) x = map (fun _ => 1) x) by (apply map_ext; intros _; exact Z1).
      exact (f_equal2 (fun (a : R) (b : list R) => (@Ok R a, Some b)) Z0 Zm).
    Qed.
  End At.

  (* ------------------------------------------------------------- points of a profile *)
  Hypothesis Hc : (0 < c)%nat.
  Section Grid.
    Variable g : grid_point.
    Notation n0 := (as_n0 p t (snd g)). Notation v2 := (as_v2 p t (snd g)). Notation n3 := (as_n3 p t (snd g)).
    Notation w := (point_wd p t dim g).
    Notation DD := (DeltaD X t dim n0 v2 n3). Notation xi := (xi_i X t dim n0 v2).
    Lemma g_len : length w = (c * (dim + 1) + 1)%nat.
    Proof.
      unfold point_wd. rewrite (assoc_pwd prs bin p Hp Hph t Ht dim (fst g) (snd g)), !app_length, mk1_length.
      assert (E : forall s, length (flat_map (fun k => mk1 c (v2 k)) (seq s dim)) = (dim * c)%nat).
      { induction dim as [ | d IH]; intros s; [reflexivity | ]. cbn [seq flat_map]. rewrite app_length, mk1_length, IH. lia. }
      etransitivity; [exact (f_equal (fun k => (c + (k + 1))%nat) (E 0%nat)) | lia].
    Qed.
    Lemma g_n3 : nth (c * (dim + 1)) w 0 = n3.
    Proof.
      pose proof (pt_n3 prs bin p Hp Hph t Ht dim (fst g) (snd g) Hc) as H. unfold da_n3 in H. rewrite (pt_dim prs bin p Hp Hph t Ht dim (fst g) (snd g) Hc) in H. exact H.
    Qed.
    Hypothesis Hd : dense p t dim g.
    Lemma g_strength i j : (i < c)%nat -> (j < c)%nat -> pair_strength p t dim w i j = DD i j.
    Proof.
      intros Hi Hj. destruct Hd as (H3 & H0 & _).
      rewrite <- (strength_at prs bin p Hp Hph t dim w i j Ht Hi Hj g_len) by (rewrite g_n3; exact H3).
      apply (C45_association_strength prs bin p Hp Hph t Ht dim (fst g) (snd g) Hc i j Hi Hj).
      - lra.
      - intros k Hk. destruct (H0 k Hk). lra.
    Qed.
    Lemma g_eff i : (i < c)%nat -> rho_eff p t i dim w = n0 i * xi i.
    Proof.
      intros Hi. destruct Hd as (_ & H0 & _). rewrite <- (rho_eff_at prs bin p Hp t dim w i Hi g_len).
      unfold da_rho0. rewrite (ix_mk1 (K := RNum)) by auto. cbv zeta. unfold point_wd.
      rewrite (pt_dim prs bin p Hp Hph t Ht dim (fst g) (snd g) Hc), (pt_n0 prs bin p Hp Hph t Ht dim (fst g) (snd g)), (pt_n2i prs bin p Hp Hph t Ht dim (fst g) (snd g)) by auto. rn.
      match goal with |- (if ?b then _ else _) = _ => replace b with false end.
      2:{ symmetry. apply Rltb_false. rewrite n0_cutoff_R. destruct (H0 i Hi). lra. }
      rewrite nsumi_R. unfold xi_i, dot.
      rewrite (Sum_ext dim _ (fun k => v2 k i * v2 k i)) by (intros k Hk; rewrite (pt_v2 prs bin p Hp Hph t Ht dim (fst g) (snd g)) by auto; reflexivity).
      exact (eff_alg2 _ _ _).
    Qed.
    Lemma g_total : rho_total p t dim w = density p t dim g.
    Proof. apply Sum_ext. exact g_eff. Qed.
    Lemma g_nonassoc i j : Kab X i = 0 \/ Kab X j = 0 -> DD i j = 0.
    Proof.
      intros H. unfold DeltaD, Kapij. assert (E : Kab X i * Kab X j = 0) by (destruct H as [-> | ->]; ring). rewrite E, sqrt_0. ring.
    Qed.
    Lemma g_DD i j : (i < c)%nat -> (j < c)%nat -> 0 <= DD i j.
    Proof.
      intros Hi Hj. destruct Hd as (H3 & H0 & Hx). destruct (Hap i Hi) as (K1 & E1 & _). destruct (Hap j Hj) as (K2 & E2 & _). destruct (Hph i Hi) as (_ & S1 & _). destruct (Hph j Hj) as (_ & S2 & _).
      pose proof (Di_pos p Hph t Ht i Hi) as D1. pose proof (Di_pos p Hph t Ht j Hj) as D2.
      change (0 <= Eab X i) in E1. change (0 <= Eab X j) in E2. change (0 < Sg X i) in S1. change (0 < Sg X j) in S2.
      assert (Hn : 0 <= n2s X t n0).
      { apply rsum_nonneg. intros k Hk. apply seq_in in Hk. destruct (H0 k Hk). destruct (Hph k Hk) as (M1 & _). change (0 < M X k) in M1.
        unfold n2i. pose proof PI_RGT_0. apply Rmult_le_pos; [apply Rmult_le_pos; [apply Rmult_le_pos; lra | apply pow2_ge_0] | lra]. }
      unfold DeltaD, Yij. cbv zeta. set (D := Di X t i * Di X t j / (Di X t i + Di X t j)). assert (HD : 0 <= D) by (left; apply Rdiv_lt_0_compat; [apply Rmult_lt_0_compat; auto | lra]). clearbody D.
      set (u := 1 - n3). assert (Hu : 0 < u) by (unfold u; lra). clearbody u. set (a := n2s _ _ _) in *. set (b := xi_s _ _ _ _ _) in *. clearbody a b.
      assert (P1 : 0 <= 1 / u + D * a * b / (2 * u ^ 2) + D ^ 2 * a ^ 2 * b / (18 * u ^ 3)).
      { assert (0 < u ^ 2) by (apply pow_lt; auto). assert (0 < u ^ 3) by (apply pow_lt; auto). apply Rplus_le_le_0_compat; [apply Rplus_le_le_0_compat | ].
        - left. apply Rdiv_lt_0_compat; lra.
        - apply Rmult_le_pos; [ | left; apply Rinv_0_lt_compat; lra]. repeat apply Rmult_le_pos; auto.
        - apply Rmult_le_pos; [ | left; apply Rinv_0_lt_compat; lra]. apply Rmult_le_pos; auto. apply Rmult_le_pos; apply pow2_ge_0. }
      set (Y := 1 / u + _ + _) in *. clearbody Y.
      assert (P2 : 0 <= Sij X i j ^ 3) by (apply pow_le; unfold Sij; lra).
      assert (P3 : 0 <= Kapij X i j).
      { unfold Kapij. apply Rmult_le_pos; [apply sqrt_pos | ]. apply pow_le. apply Rmult_le_pos; [apply sqrt_pos | left; apply Rinv_0_lt_compat]. unfold Sij. lra. }
      assert (P4 : 0 <= exp ((Eab X i + Eab X j) / 2 / t) - 1).
      { assert (0 <= (Eab X i + Eab X j) / 2 / t) by (apply Rmult_le_pos; [lra | left; apply Rinv_0_lt_compat; lra]).
        pose proof (exp_ineq1_le ((Eab X i + Eab X j) / 2 / t)). lra. }
      generalize dependent (Sij X i j ^ 3). intros s3 P2. generalize dependent (Kapij X i j). intros kk P3.
      generalize dependent (exp ((Eab X i + Eab X j) / 2 / t) - 1). intros gg P4. repeat apply Rmult_le_pos; auto.
    Qed.
    Lemma g_sites i : (i < c)%nat -> 0 <= Na X i /\ 0 <= Nb X i /\ 0 <= n0 i * xi i.
    Proof.
      intros Hi. destruct (Hap i Hi) as (_ & _ & A & B). split; [exact A | ]. split; [exact B | ]. destruct Hd as (_ & H0 & _). destruct (H0 i Hi). apply Rmult_le_pos; lra.
    Qed.
    (** the law has exactly one solution *)
    Lemma g_exists : exists xa xb, law_at p t dim g xa xb /\ forall ya yb, law_at p t dim g ya yb -> forall i, (i < c)%nat -> ya i = xa i /\ yb i = xb i.
    Proof.
      destruct (C14_exists_unique c DD (Na X) (Nb X) (fun i => n0 i * xi i) g_DD g_sites) as (x & (Lx & Px & Hx) & Bx & Ux).
      exists (fun i => fa x i), (fun i => fb c x i). split; [split; [exact Hx | exact Bx] | ].
      intros ya yb [Hy By] i Hi.
      set (y := map ya (seq 0 c) ++ map yb (seq 0 c)).
      assert (La : length (map ya (seq 0 c)) = c) by (rewrite map_length, seq_length; auto).
      assert (Fa : forall k, (k < c)%nat -> fa y k = ya k) by (intros k Hk; unfold fa, y; rewrite app_nth1 by lia; apply nth_map_seq; auto).
      assert (Fb : forall k, (k < c)%nat -> fb c y k = yb k).
      { intros k Hk. unfold fb, y. rewrite app_nth2 by lia. rewrite La. replace (c + k - c)%nat with k by lia. apply nth_map_seq; auto. }
      assert (Ey : y = x).
      { apply Ux. split; [unfold y; rewrite app_length, !map_length, seq_length; lia | ]. split.
        - intros k Hk. rewrite Fa, Fb by auto. destruct (By k Hk). lra.
        - intros k Hk. destruct (Hy k Hk) as [H1 H2]. rewrite Fa, Fb by auto. unfold bonds_a, bonds_b.
          rewrite (Sum_ext c (fun j => n0 j * xi j * Nb X j * fb c y j * DD k j) (fun j => n0 j * xi j * Nb X j * yb j * DD k j)) by (intros j Hj; rewrite Fb by auto; auto).
          rewrite (Sum_ext c (fun j => n0 j * xi j * Na X j * fa y j * DD k j) (fun j => n0 j * xi j * Na X j * ya j * DD k j)) by (intros j Hj; rewrite Fa by auto; auto).
          split; [exact H1 | exact H2]. }
      rewrite <- Ey, Fa, Fb by auto. auto.
    Qed.
    Lemma g_free xa xb i : law_at p t dim g xa xb -> (i < c)%nat -> Kab X i = 0 -> xa i = 1 /\ xb i = 1.
    Proof.
      intros [H _] Hi K. destruct (H i Hi) as [H1 H2]. change (N X) with c in *.
      rewrite (Sum_ext c _ (fun _ => 0)) in H1 by (intros j Hj; rewrite g_nonassoc by auto; ring).
      rewrite (Sum_ext c (fun j => n0 j * xi j * Na X j * xa j * DD i j) (fun _ => 0)) in H2 by (intros j Hj; rewrite g_nonassoc by auto; ring).
      rewrite rsum_zero in H1, H2 by auto. lra.
    Qed.
    (** the associating components of a solution *)
    Definition assoc_list (xa xb : nat -> R) : list R := map (fun i => xa (comp p i)) (seq 0 m) ++ map (fun i => xb (comp p i)) (seq 0 m).
    Lemma g_law xa xb : law_at p t dim g xa xb -> point_law p t dim w (assoc_list xa xb) /\ point_energy p t dim w (assoc_list xa xb) = energy_at p t dim g xa xb.
    Proof.
      intros Hl. pose proof Hl as [H By]. set (y := assoc_list xa xb).
      assert (La : length (map (fun i => xa (comp p i)) (seq 0 m)) = m) by (rewrite map_length, seq_length; auto).
      assert (Fa : forall k, (k < m)%nat -> fa y k = xa (comp p k)) by (intros k Hk; unfold fa, y, assoc_list; rewrite app_nth1 by lia; apply (nth_map_seq (fun i => xa (comp p i))); auto).
      assert (Fb : forall k, (k < m)%nat -> fb m y k = xb (comp p k)).
      { intros k Hk. unfold fb, y, assoc_list. rewrite app_nth2 by lia. rewrite La. replace (m + k - m)%nat with k by lia. apply (nth_map_seq (fun i => xb (comp p i))); auto. }
      split; [split; [ | split] | ].
      - unfold y, assoc_list. rewrite app_length, !map_length, seq_length. lia.
      - intros k Hk. rewrite Fa, Fb by auto. destruct (By _ (comp_lt p W k Hk)). lra.
      - intros k Hk. rewrite Fa, Fb by auto. destruct (H _ (comp_lt p W k Hk)) as [H1 H2]. change (N X) with c in *. unfold bonds_a, bonds_b.
        rewrite (Sum_ext m _ (fun j => n0 (comp p j) * xi (comp p j) * Nb X (comp p j) * xb (comp p j) * DD (comp p k) (comp p j))) by
          (intros j Hj; rewrite Fb, g_eff, g_strength by (auto; apply comp_lt; auto); auto).
        rewrite (sum_assoc p W (fun j => n0 j * xi j * Nb X j * xb j * DD (comp p k) j)) by (intros j Hj E; rewrite g_nonassoc by auto; ring).
        rewrite (Sum_ext m _ (fun j => n0 (comp p j) * xi (comp p j) * Na X (comp p j) * xa (comp p j) * DD (comp p k) (comp p j))) by
          (intros j Hj; rewrite Fa, g_eff, g_strength by (auto; apply comp_lt; auto); auto).
        rewrite (sum_assoc p W (fun j => n0 j * xi j * Na X j * xa j * DD (comp p k) j)) by (intros j Hj E; rewrite g_nonassoc by auto; ring).
        split; [exact H1 | exact H2].
      - unfold energy_at, f_assoc_d, point_energy, site_energy. change (N X) with c. cbv zeta.
        rewrite (Sum_ext m _ (fun j => n0 (comp p j) * xi (comp p j) * (Na X (comp p j) * fx (xa (comp p j)) + Nb X (comp p j) * fx (xb (comp p j))))) by
          (intros j Hj; rewrite Fa, Fb, g_eff by (auto; apply comp_lt; auto); auto).
        apply (sum_assoc p W (fun j => n0 j * xi j * (Na X j * fx (xa j) + Nb X j * fx (xb j)))). intros j Hj E. destruct (g_free xa xb j Hl Hj E) as [-> ->]. rewrite fx_1. ring.
    Qed.
    Lemma g_sum : (Sum i < m, rho_eff p t (comp p i) dim w * (Na X (comp p i) + Nb X (comp p i))) <= Sum i < c, n0 i * xi i * (Na X i + Nb X i).
    Proof.
      rewrite (Sum_ext m _ (fun j => n0 (comp p j) * xi (comp p j) * (Na X (comp p j) + Nb X (comp p j)))) by (intros j Hj; rewrite g_eff by (apply comp_lt; auto); auto).
      set (h := fun j => n0 j * xi j * (Na X j + Nb X j)).
      rewrite (Sum_ext m _ (fun j => (fun i => if Req_EM_T (Kab X i) 0 then 0 else h i) (comp p j))).
      2: { intros j Hj. cbv beta. destruct (Req_EM_T _ _) as [E | _]; [exfalso; exact (comp_assoc p W j Hj E) | reflexivity]. }
      rewrite (sum_assoc p W (fun i => if Req_EM_T (Kab X i) 0 then 0 else h i)) by (intros j Hj E; cbv beta; destruct (Req_EM_T _ _); [auto | contradiction]).
      apply rsum_le. intros j Hj. apply seq_in in Hj. enough (0 <= h j) by (destruct (Req_EM_T _ _); lra). unfold h. destruct (g_sites j Hj) as (A & B & C). apply Rmult_le_pos; lra.
    Qed.
    Lemma g_weak : weak_at p t dim g -> weak_point p t dim w.
    Proof.
      intros Hw i Hi. destruct (Hw _ (comp_lt p W i Hi)) as [H1 H2]. cbv zeta. split.
      - eapply Rle_trans; [right | exact H1].
        rewrite (Sum_ext m _ (fun j => n0 (comp p j) * xi (comp p j) * Nb X (comp p j) * DD (comp p i) (comp p j))) by (intros j Hj; rewrite g_eff, g_strength by (apply comp_lt; auto); auto).
        apply (sum_assoc p W (fun j => n0 j * xi j * Nb X j * DD (comp p i) j)). intros j Hj E. rewrite g_nonassoc by auto. ring.
      - eapply Rle_trans; [right | exact H2].
        rewrite (Sum_ext m _ (fun j => n0 (comp p j) * xi (comp p j) * Na X (comp p j) * DD (comp p i) (comp p j))) by (intros j Hj; rewrite g_eff, g_strength by (apply comp_lt; auto); auto).
        apply (sum_assoc p W (fun j => n0 j * xi j * Na X j * DD (comp p i) j)). intros j Hj E. rewrite g_nonassoc by auto. ring.
    Qed.
  End Grid.

  Lemma g_regular g : dense p t dim g -> point_regular p t dim (point_wd p t dim g).
  Proof.
    intros Hd. pose proof Hd as (H3 & H0 & Hx). pose proof (g_n3 g) as E3.
    assert (E0 : forall i, (i < c)%nat -> nth i (point_wd p t dim g) 0 = as_n0 p t (snd g) i).
    { intros i Hi. exact (pt_n0 prs bin p Hp Hph t Ht dim (fst g) (snd g) i Hi). }
    split; [exact (g_len g) | ]. split; [ | split; [ | split; [ | split]]].
    - intros i Hi. rewrite E0 by auto. destruct (H0 i Hi). lra.
    - rewrite (Sum_ext c _ (as_n0 p t (snd g))) by (intros i Hi; apply E0; auto). apply Rgt_not_eq.
      apply Rlt_le_trans with (as_n0 p t (snd g) 0%nat); [destruct (H0 0%nat Hc); lra | ].
      apply (rsum_ge_term (seq 0 c) (as_n0 p t (snd g)) 0%nat); [ | apply seq_in; auto]. intros j Hj. apply seq_in in Hj. destruct (H0 j Hj). lra.
    - rewrite E3. exact H3.
    - intros i Hi. rewrite (g_eff g Hd) by auto. destruct (H0 i Hi). apply Rmult_le_pos; lra.
    - rewrite <- (xi_at prs bin p Hp t dim (point_wd p t dim g) Hc (g_len g)). 
      eapply Rle_trans; [exact Hx | ]. right. symmetry.
      apply (pt_xi prs bin p Hp Hph t Ht dim (fst g) (snd g) Hc). intros i Hi. destruct (H0 i Hi). lra.
  Qed.

  (** exactly one solution of the law of mass action at every point *)
  Theorem C45_cross_law g : dense p t dim g ->
    exists xa xb, law_at p t dim g xa xb /\ forall ya yb, law_at p t dim g ya yb -> forall i, (i < c)%nat -> ya i = xa i /\ yb i = xb i.
  Proof. exact (g_exists g). Qed.

  (** what the functional returns at the points of a profile, one number per point *)
  Definition near_law tol (g : grid_point) (a : R) : Prop :=
    (density p t dim g < / 2 ^ 52 -> a = 0) /\
    (/ 2 ^ 52 <= density p t dim g -> forall xa xb, law_at p t dim g xa xb -> Rabs (a - energy_at p t dim g xa xb) <= error_at p t dim g tol).
  Theorem C45_cross_association (pts : list grid_point) max_iter tol : (2 <= m)%nat -> 0 < tol < 1 -> List.Forall (dense p t dim) pts ->
    profile_run p t dim max_iter tol (repeat (2 / 10) (2 * m)) (map (point_wd p t dim) pts) ->
    exists l, phi_assoc lu max_iter tol p t (map (point_wd p t dim) pts) = Ok l /\ Forall2 (near_law tol) pts l.
  Proof.
    intros Hm Htol Hd Run. unfold phi_assoc. destruct (Nat.eqb_spec m 1) as [C | _]; [lia | ].
    assert (Guess : repeat (@nlit RNum 0.2%Q) (2 * m) = repeat (2 / 10) (2 * m)) by (f_equal; cbn; unfold Rlit; cbn; lra).
    match goal with |- exists l, phi_assoc_cross _ _ _ _ _ ?r _ = _ /\ _ => change r with (repeat (@nlit RNum 0.2%Q) (2 * m)) end. rewrite Guess. clear Guess.
    revert Run. generalize (repeat (2 / 10) (2 * m)). induction Hd as [ | g pts Hg Hgs IH]; intros x Run.
    { exists []. split; [reflexivity | constructor]. }
    pose proof Hg as (H3 & H0 & _).
    assert (L3 : nth (c * (dim + 1)) (point_wd p t dim g) 0 < 1) by (rewrite g_n3; exact H3).
    cbn [map profile_run] in Run. cbn [map]. rewrite (g_total g Hg) in Run. destruct Run as [[Dl Run] | (Dn & k & y & Hk & Y0 & Ry & Run)].
    - destruct (IH _ Run) as (l & El & Fl). exists (0 :: l). split.
      + apply (cross_step lu p t max_iter tol x (map (fun _ => 1) x)); [ | exact El].
        apply (cross_dilute (point_wd p t dim g) (g_len g)). rewrite (g_total g Hg). exact Dl.
      + constructor; auto. split; [auto | intros C; exfalso; apply (Rlt_irrefl (/ 2 ^ 52)); eapply Rle_lt_trans; [exact C | exact Dl]].
    - assert (HDe : forall i j, (i < m)%nat -> (j < m)%nat -> 0 <= pair_strength p t dim (point_wd p t dim g) (comp p i) (comp p j)).
      { intros i j Hi Hj. rewrite (g_strength g Hg) by (apply comp_lt; auto). apply (g_DD g Hg); apply comp_lt; auto. }
      assert (HRo : forall i, (i < m)%nat -> 0 <= rho_eff p t (comp p i) dim (point_wd p t dim g)).
      { intros i Hi. rewrite (g_eff g Hg) by (apply comp_lt; auto). apply (g_sites g Hg). apply comp_lt; auto. }
      destruct (IH _ Run) as (l & El & Fl). exists (point_energy p t dim (point_wd p t dim g) (y (S k)) :: l). split.
      + apply (cross_step lu p t max_iter tol x (y (S k))); [ | exact El]. rewrite <- Y0.
        apply (run_cross (point_wd p t dim g) (g_len g) L3 HDe HRo max_iter tol k y); auto. rewrite (g_total g Hg). exact Dn.
      + constructor; auto. split; [intros C; exfalso; apply (Rlt_irrefl (/ 2 ^ 52)); eapply Rle_lt_trans; [exact Dn | exact C] | ].
        intros _ xa xb Hl. destruct (g_law g Hg xa xb Hl) as [Pl <-].
        eapply Rle_trans; [exact (run_accuracy (point_wd p t dim g) (g_len g) L3 HDe HRo tol k y _ Htol Ry Pl) | ].
        unfold error_at. apply Rmult_le_compat_l; [ | exact (g_sum g Hg)].
        assert (1 <= (1 + tol) / (1 - tol) ^ 2); [ | lra].
        apply Rmult_le_reg_r with ((1 - tol) ^ 2); [apply pow_lt; lra | ]. unfold Rdiv. rewrite Rmult_assoc, Rinv_l by (apply pow_nonzero; lra). nra.
  Qed.
  (** weak association at every point: no hypothesis on the iteration is left *)
  Theorem C45_cross_weak (pts : list grid_point) K max_iter tol : (2 <= m)%nat -> 0 < tol <= / 10 -> List.Forall (dense p t dim) pts -> List.Forall (weak_at p t dim) pts ->
    (K < max_iter)%nat -> 8 * sqrt (2 * INR m) * (4 / 5) ^ (2 ^ K) < tol ->
    exists l, phi_assoc lu max_iter tol p t (map (point_wd p t dim) pts) = Ok l /\ Forall2 (near_law tol) pts l.
  Proof.
    intros Hm Htol Hd Hw HK Hb. apply C45_cross_association; auto; [lra | ].
    apply (C41_weak_profile prs bin p Hp Hph Hap t dim Ht ltac:(lia)) with (K := K); auto.
    - apply Forall_forall. intros w Hin. apply in_map_iff in Hin. destruct Hin as (g & <- & Hin). apply g_regular. rewrite Forall_forall in Hd. auto.
    - apply Forall_forall. intros w Hin. apply in_map_iff in Hin. destruct Hin as (g & <- & Hin). rewrite Forall_forall in Hd, Hw. apply g_weak; auto.
  Qed.
End Cross.

(* ------------------------------------------------------------------ a non-trivial case *)
(** two isotopologues of water in an inhomogeneous vapour, default tolerance and iterations *)
Definition thin (s : wf_shape) (r : R) (i k : nat) : R :=
  match s with M_Dft.Delta => 4 * PI * r ^ 2 / 10 ^ 5 | Theta => r ^ 3 / 10 ^ 5 | DeltaVec => r ^ 2 / 10 ^ 5 end.
Notation D0 := (Di (mix_of ww) 350 0).
Lemma thin_n0 i : (i < 2)%nat -> as_n0 ww 350 thin i = / 10 ^ 5.
Proof. intros Hi. pose proof (ww_D i Hi). unfold as_n0, thin. field. split; [lra | apply PI_neq0]. Qed.
Lemma thin_v2 k i : (i < 2)%nat -> as_v2 ww 350 thin k i = 1.065587 * (D0 / 2) ^ 2 / 10 ^ 5.
Proof. intros Hi. destruct i as [ | [ | i]]; [ | | lia]; unfold as_v2, thin; [change (M (mix_of ww) 0) with 1.065587 | change (M (mix_of ww) 1) with 1.065587; rewrite ww_D1]; field. Qed.
Lemma thin_n3 : as_n3 ww 350 thin = 2 * 1.065587 * (D0 / 2) ^ 3 / 10 ^ 5.
Proof.
  unfold as_n3. change (length (p_m ww)) with 2%nat. cbn [seq rsum]. unfold thin. change (M (mix_of ww) 0) with 1.065587. change (M (mix_of ww) 1) with 1.065587. rewrite ww_D1. field.
Qed.
Lemma thin_n2i i : (i < 2)%nat -> n2i (mix_of ww) 350 (as_n0 ww 350 thin) i = 1.065587 * PI * D0 ^ 2 / 10 ^ 5.
Proof. intros Hi. unfold n2i. rewrite thin_n0 by auto. destruct i as [ | [ | i]]; [ | | lia]; [change (M (mix_of ww) 0) with 1.065587 | change (M (mix_of ww) 1) with 1.065587; rewrite ww_D1]; field. Qed.
Lemma thin_xi i : (i < 2)%nat -> 0.9 <= xi_i (mix_of ww) 350 1 (as_n0 ww 350 thin) (as_v2 ww 350 thin) i <= 1.
Proof.
  intros Hi. unfold xi_i, SpecDft.dot. rewrite thin_n2i by auto. cbn [seq rsum]. rewrite thin_v2 by auto. pose proof (ww_D 0%nat ltac:(lia)) as H. set (D := D0) in *. clearbody D. split; interval.
Qed.
Lemma thin_n2s : n2s (mix_of ww) 350 (as_n0 ww 350 thin) = 2 * 1.065587 * PI * D0 ^ 2 / 10 ^ 5.
Proof. unfold n2s. change (N (mix_of ww)) with 2%nat. cbn [seq rsum]. rewrite !thin_n2i by lia. field. Qed.
Lemma thin_xs : 0.9 <= xi_s (mix_of ww) 350 1 (as_n0 ww 350 thin) (as_v2 ww 350 thin) <= 1.
Proof.
  unfold xi_s, SpecDft.dot. rewrite thin_n2s. change (N (mix_of ww)) with 2%nat. cbn [seq rsum]. rewrite !thin_v2 by lia. pose proof (ww_D 0%nat ltac:(lia)) as H. set (D := D0) in *. clearbody D. split; interval.
Qed.
Lemma thin_dense local : dense ww 350 1 (local, thin).
Proof.
  unfold dense. cbn [snd]. split; [ | split].
  - rewrite thin_n3. pose proof (ww_D 0%nat ltac:(lia)) as H. set (D := D0) in *. clearbody D. interval.
  - intros i Hi. change (length (p_m ww)) with 2%nat in Hi. rewrite thin_n0 by auto. pose proof (thin_xi i Hi). lra.
  - pose proof thin_xs. lra.
Qed.
Lemma thin_strength i j : (i < 2)%nat -> (j < 2)%nat -> 0 <= DeltaD (mix_of ww) 350 1 (as_n0 ww 350 thin) (as_v2 ww 350 thin) (as_n3 ww 350 thin) i j <= 10 ^ 4.
Proof.
  intros Hi Hj. unfold DeltaD, Yij. rewrite thin_n2s, thin_n3. pose proof thin_xs as Hx. pose proof (ww_D 0%nat ltac:(lia)) as H.
  assert (Ed : forall k, (k < 2)%nat -> Di (mix_of ww) 350 k = D0) by (intros [ | [ | k]] Hk; [reflexivity | reflexivity | lia]).
  assert (Es : Sij (mix_of ww) i j = 3.000683).
  { destruct i as [ | [ | i]]; try lia; destruct j as [ | [ | j]]; try lia; unfold Sij; change (Sg (mix_of ww) 0) with 3.000683; change (Sg (mix_of ww) 1) with 3.000683; lra. }
  assert (Ek : Kapij (mix_of ww) i j = 0.034867983).
  { destruct i as [ | [ | i]]; try lia; destruct j as [ | [ | j]]; try lia; unfold Kapij; rewrite Es; change (Kab (mix_of ww) 0) with 0.034867983; change (Kab (mix_of ww) 1) with 0.034867983;
      change (Sg (mix_of ww) 0) with 3.000683; change (Sg (mix_of ww) 1) with 3.000683; rewrite !sqrt_square by lra; field; lra. }
  assert (Ee : Eab (mix_of ww) i = 2500.6706 /\ Eab (mix_of ww) j = 2500.6706).
  { destruct i as [ | [ | i]]; try lia; destruct j as [ | [ | j]]; try lia; split; reflexivity. }
  destruct Ee as [-> ->]. rewrite Es, Ek, (Ed i), (Ed j) by auto. set (D := D0) in *. set (xi := xi_s _ _ _ _ _) in *. clearbody D xi. cbv zeta. split; interval.
Qed.
Lemma thin_alg a b e g : 0 <= a <= 1 -> 0 <= b <= 1 -> 0 <= e <= 10 ^ 4 -> 0 <= g <= 10 ^ 4 -> / 10 ^ 5 * a * 1 * e + (/ 10 ^ 5 * b * 1 * g + 0) <= / 4.
Proof. intros. assert (a * e <= 10 ^ 4) by nra. assert (b * g <= 10 ^ 4) by nra. lra. Qed.
Lemma thin_weak local : weak_at ww 350 1 (local, thin).
Proof.
  intros i Hi. change (length (p_m ww)) with 2%nat in *. cbn [seq rsum snd]. rewrite !thin_n0 by lia.
  destruct (ww_sites 0%nat ltac:(lia)) as [-> ->]. destruct (ww_sites 1%nat ltac:(lia)) as [-> ->].
  pose proof (thin_xi 0%nat ltac:(lia)). pose proof (thin_xi 1%nat ltac:(lia)). pose proof (thin_strength i 0%nat Hi ltac:(lia)). pose proof (thin_strength i 1%nat Hi ltac:(lia)).
  split; apply thin_alg; auto; lra.
Qed.
Example C45_cross_case local : exists a xa xb, law_at ww 350 1 (local, thin) xa xb /\
  phi_assoc gauss_lu 50 (/ 10 ^ 10) ww 350 [point_wd ww 350 1 (local, thin)] = Ok [a] /\
  Rabs (a - energy_at ww 350 1 (local, thin) xa xb) <= error_at ww 350 1 (local, thin) (/ 10 ^ 10) /\ error_at ww 350 1 (local, thin) (/ 10 ^ 10) <= / 10 ^ 13.
Proof.
  assert (H350 : 0 < 350) by lra. assert (Hc : (0 < length (p_m ww))%nat) by (cbn; lia).
  destruct (C45_cross_law ww ww_phys ww_assoc 350 1 H350 Hc (local, thin) (thin_dense local)) as (xa & xb & L & _).
  destruct (C45_cross_weak _ _ _ ww_ok ww_phys ww_assoc 350 1 H350 gauss_lu gauss_lu_exact Hc [(local, thin)] 7 50 (/ 10 ^ 10)) as (l & El & Fl).
  - rewrite ww_nassoc. lia.
  - lra.
  - constructor; [apply thin_dense | constructor].
  - constructor; [apply thin_weak | constructor].
  - lia.
  - rewrite ww_nassoc. replace (2 * INR 2) with (2 * 2) by (cbn; lra). rewrite sqrt_square by lra. cbn [Nat.pow Nat.mul Nat.add]. interval.
  - inversion Fl as [ | ? a ? l' N1 Fl']. inversion Fl'. subst. exists a, xa, xb. split; [exact L | ]. split; [exact El | ]. split.
    + apply N1; [ | exact L]. unfold density. change (length (p_m ww)) with 2%nat. cbn [seq rsum snd]. rewrite !thin_n0 by lia.
      pose proof (thin_xi 0%nat ltac:(lia)). pose proof (thin_xi 1%nat ltac:(lia)). lra.
    + unfold error_at. change (length (p_m ww)) with 2%nat. cbn [seq rsum snd]. rewrite !thin_n0 by lia.
      destruct (ww_sites 0%nat ltac:(lia)) as [-> ->]. destruct (ww_sites 1%nat ltac:(lia)) as [-> ->].
      pose proof (thin_xi 0%nat ltac:(lia)) as X0. pose proof (thin_xi 1%nat ltac:(lia)) as X1.
      match goal with |- ?k * ?s <= _ => assert (0 <= k <= 5 / 10 ^ 10) by (split; interval); assert (0 <= s <= 4 / 10 ^ 5) by lra; generalize dependent k; generalize dependent s end.
      intros s Hs k Hk. nra.
Qed.

Print Assumptions C45_cross_law.
Print Assumptions C45_cross_association.
Print Assumptions C45_cross_weak.
