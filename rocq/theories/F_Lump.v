(** Regrouping of components: relabelling, dropping absent components and splitting a component
    into identical pseudo-components are all instances of one index map. *)
From Coq Require Import ZArith QArith Reals Lra Lia List Bool Permutation.
From Verif Require Import Num RNum RSum Tables M_Params F_Params M_Eos Spec F_Spec F_SpecPolar
  F_SpecAssoc F_Contrib.
Import ListNotations.
Local Open Scope R_scope.

(* --------------------------------------------------------------- on the textbook level *)
Section SpecLump.
  Variables (X X' : mixture) (T : R) (phi : nat -> nat) (rho rho' : nat -> R).
  Hypothesis Hphi : forall i, (i < N X)%nat -> (phi i < N X')%nat.
  (** amount of component j of X' = total amount of the components of X mapped to j *)
  Hypothesis Hrho : forall j, (j < N X')%nat ->
    rho' j = Sum i < N X, if Nat.eqb (phi i) j then rho i else 0.
  Hypothesis HM : forall i, (i < N X)%nat -> M X i = M X' (phi i).
  Hypothesis HS : forall i, (i < N X)%nat -> Sg X i = Sg X' (phi i).
  Hypothesis HE : forall i, (i < N X)%nat -> Ep X i = Ep X' (phi i).
  Hypothesis HMu : forall i, (i < N X)%nat -> Mu2 X i = Mu2 X' (phi i).
  Hypothesis HQ : forall i, (i < N X)%nat -> Qu2 X i = Qu2 X' (phi i).
  Hypothesis HK : forall i, (i < N X)%nat -> Kab X i = Kab X' (phi i).
  Hypothesis HEa : forall i, (i < N X)%nat -> Eab X i = Eab X' (phi i).
  Hypothesis HNa : forall i, (i < N X)%nat -> Na X i = Na X' (phi i).
  Hypothesis HNb : forall i, (i < N X)%nat -> Nb X i = Nb X' (phi i).
  Hypothesis Hk : forall i j, (i < N X)%nat -> (j < N X)%nat -> Kij X i j = Kij X' (phi i) (phi j).

  Lemma push1 (f g : nat -> R) : (forall i, (i < N X)%nat -> f i = rho i * g (phi i)) ->
    (Sum i < N X, f i) = Sum j < N X', rho' j * g j.
  Proof.
    intros Hf. rewrite (Sum_ext _ f (fun i => rho i * g (phi i))) by auto.
    rewrite (Sum_ext (N X') (fun j => rho' j * g j)
      (fun j => Sum i < N X, (if Nat.eqb (phi i) j then rho i else 0) * g j)).
    2:{ intros j Hj. rewrite Hrho, rsum_scal_r by auto. auto. }
    rewrite rsum_swap. apply Sum_ext; intros i Hi.
    rewrite (Sum_single (N X') (phi i)); auto.
    - rewrite Nat.eqb_refl. auto.
    - intros j Hj Hn. destruct (Nat.eqb_spec (phi i) j); [congruence | ring].
  Qed.

  Lemma push2 (f g : nat -> nat -> R) :
    (forall i j, (i < N X)%nat -> (j < N X)%nat -> f i j = rho i * rho j * g (phi i) (phi j)) ->
    (Sum i < N X, Sum j < N X, f i j) = Sum i < N X', Sum j < N X', rho' i * rho' j * g i j.
  Proof.
    intros Hf.
    rewrite (push1 _ (fun a => Sum j < N X', rho' j * g a j)).
    - apply Sum_ext; intros i Hi. rewrite <- rsum_scal. apply Sum_ext; intros; ring.
    - intros i Hi. rewrite <- rsum_scal.
      rewrite (push1 _ (fun b => rho i * g (phi i) b)).
      + apply Sum_ext; intros; ring.
      + intros j Hj. rewrite Hf by auto. ring.
  Qed.

  Lemma push3 (f g : nat -> nat -> nat -> R) :
    (forall i j k, (i < N X)%nat -> (j < N X)%nat -> (k < N X)%nat ->
       f i j k = rho i * rho j * rho k * g (phi i) (phi j) (phi k)) ->
    (Sum i < N X, Sum j < N X, Sum k < N X, f i j k)
    = Sum i < N X', Sum j < N X', Sum k < N X', rho' i * rho' j * rho' k * g i j k.
  Proof.
    intros Hf.
    rewrite (push2 _ (fun a b => Sum k < N X', rho' k * g a b k)).
    - apply Sum_ext; intros i Hi. apply Sum_ext; intros j Hj. rewrite <- rsum_scal.
      apply Sum_ext; intros; ring.
    - intros i j Hi Hj. rewrite <- rsum_scal.
      rewrite (push1 _ (fun c => rho i * rho j * g (phi i) (phi j) c)).
      + apply Sum_ext; intros; ring.
      + intros k Hk'. rewrite Hf by auto. ring.
  Qed.

  Lemma Di_lump i : (i < N X)%nat -> Di X T i = Di X' T (phi i).
  Proof. intros. unfold Di. rewrite HS, HE; auto. Qed.
  Lemma Sij_lump i j : (i < N X)%nat -> (j < N X)%nat -> Sij X i j = Sij X' (phi i) (phi j).
  Proof. intros. unfold Sij. rewrite !HS; auto. Qed.
  Lemma Eij0_lump i j : (i < N X)%nat -> (j < N X)%nat -> Eij0 X i j = Eij0 X' (phi i) (phi j).
  Proof. intros. unfold Eij0. rewrite !HE; auto. Qed.
  Lemma Zeta_lump k : Zeta X T rho k = Zeta X' T rho' k.
  Proof.
    unfold Zeta. f_equal. rewrite (push1 _ (fun j => M X' j * Di X' T j ^ k)).
    - apply Sum_ext; intros; ring.
    - intros i Hi. rewrite HM, Di_lump by auto. ring.
  Qed.
  Lemma Eta_lump : Eta X T rho = Eta X' T rho'.
  Proof. apply Zeta_lump. Qed.
  Lemma Rho_lump : Rho X rho = Rho X' rho'.
  Proof.
    unfold Rho. rewrite (push1 _ (fun _ => 1)); [apply Sum_ext; intros; ring | intros; ring].
  Qed.
  Lemma Mbar_lump : Mbar X rho = Mbar X' rho'.
  Proof.
    unfold Mbar. rewrite Rho_lump. f_equal. apply push1. intros i Hi. rewrite HM; auto.
  Qed.
  Lemma Gij_lump i j : (i < N X)%nat -> (j < N X)%nat -> Gij X T rho i j = Gij X' T rho' (phi i) (phi j).
  Proof. intros. unfold Gij. rewrite !Di_lump, !Zeta_lump; auto. Qed.

  Theorem f_hs_lump : f_hs X T rho = f_hs X' T rho'.
  Proof. unfold f_hs. rewrite !Zeta_lump. auto. Qed.
  Theorem f_hc_lump : f_hc X T rho = f_hc X' T rho'.
  Proof.
    unfold f_hc. f_equal. rewrite (push1 _ (fun j => (M X' j - 1) * ln (Gij X' T rho' j j))).
    - apply Sum_ext; intros; ring.
    - intros i Hi. rewrite HM, Gij_lump by auto. ring.
  Qed.
  Lemma power_series_lump c0 c1 c2 : power_series X T rho c0 c1 c2 = power_series X' T rho' c0 c1 c2.
  Proof. unfold power_series. rewrite Mbar_lump, Eta_lump. auto. Qed.
  Lemma C1_lump : C1 X T rho = C1 X' T rho'.
  Proof. unfold C1. rewrite Mbar_lump, Eta_lump. auto. Qed.
  Lemma mixsum_lump k : mixsum X T rho k = mixsum X' T rho' k.
  Proof.
    unfold mixsum.
    rewrite (push2 _ (fun i j => M X' i * M X' j * (Eij X' i j / T) ^ k * Sij X' i j ^ 3)).
    - apply Sum_ext; intros i Hi. apply Sum_ext; intros; ring.
    - intros i j Hi Hj. unfold Eij. rewrite Hk, Eij0_lump, Sij_lump, !HM by auto. ring.
  Qed.
  Theorem f_disp_lump : f_disp X T rho = f_disp X' T rho'.
  Proof. unfold f_disp. rewrite !power_series_lump, C1_lump, !mixsum_lump, Mbar_lump. auto. Qed.

  Lemma Wi_lump k i : (i < N X)%nat -> Wi X T k i = Wi X' T k (phi i).
  Proof. intros. unfold Wi. rewrite HE, HS; auto. Qed.
  Lemma J2_lump a b i j : (i < N X)%nat -> (j < N X)%nat ->
    J2 X T rho a b i j = J2 X' T rho' a b (phi i) (phi j).
  Proof.
    intros Hi Hj. unfold J2, m2, mp. rewrite Eij0_lump, Eta_lump, !HM by auto. auto.
  Qed.
  Lemma J3_lump c i j k : (i < N X)%nat -> (j < N X)%nat -> (k < N X)%nat ->
    J3 X T rho c i j k = J3 X' T rho' c (phi i) (phi j) (phi k).
  Proof. intros Hi Hj Hk'. unfold J3, m3, mp. rewrite Eta_lump, !HM by auto. auto. Qed.
  Lemma J3dq_lump i j k : (i < N X)%nat -> (j < N X)%nat -> (k < N X)%nat ->
    J3dq X T rho i j k = J3dq X' T rho' (phi i) (phi j) (phi k).
  Proof. intros Hi Hj Hk'. unfold J3dq, m3, mp. rewrite Eta_lump, !HM by auto. auto. Qed.

  Theorem dd2_lump : dd2 X T rho = dd2 X' T rho'.
  Proof.
    unfold dd2. f_equal.
    rewrite (push2 _ (fun i j => Wi X' T 3 i * Wi X' T 3 j / Sij X' i j ^ 3 * Mu2 X' i * Mu2 X' j
      * J2 X' T rho' AD BD i j)).
    - apply Sum_ext; intros i Hi. apply Sum_ext; intros; unfold Rdiv; ring.
    - intros i j Hi Hj. rewrite !Wi_lump, Sij_lump, !HMu, J2_lump by auto. unfold Rdiv; ring.
  Qed.
  Theorem dd3_lump : dd3 X T rho = dd3 X' T rho'.
  Proof.
    unfold dd3. f_equal.
    rewrite (push3 _ (fun i j k => Wi X' T 3 i * Wi X' T 3 j * Wi X' T 3 k
      / (Sij X' i j * Sij X' i k * Sij X' j k) * Mu2 X' i * Mu2 X' j * Mu2 X' k
      * J3 X' T rho' CD i j k)).
    - apply Sum_ext; intros i Hi. apply Sum_ext; intros j Hj. apply Sum_ext; intros; unfold Rdiv; ring.
    - intros i j k Hi Hj Hk'. rewrite !Wi_lump, !Sij_lump, !HMu, J3_lump by auto. unfold Rdiv; ring.
  Qed.
  Theorem f_dd_lump : f_dd X T rho = f_dd X' T rho'.
  Proof. unfold f_dd. rewrite dd2_lump, dd3_lump. auto. Qed.

  Theorem qq2_lump : qq2 X T rho = qq2 X' T rho'.
  Proof.
    unfold qq2. f_equal.
    rewrite (push2 _ (fun i j => Wi X' T 5 i * Wi X' T 5 j / Sij X' i j ^ 7 * Qu2 X' i * Qu2 X' j
      * J2 X' T rho' AQ BQ i j)).
    - apply Sum_ext; intros i Hi. apply Sum_ext; intros; unfold Rdiv; ring.
    - intros i j Hi Hj. rewrite !Wi_lump, Sij_lump, !HQ, J2_lump by auto. unfold Rdiv; ring.
  Qed.
  Theorem qq3_lump : qq3 X T rho = qq3 X' T rho'.
  Proof.
    unfold qq3. f_equal.
    rewrite (push3 _ (fun i j k => Wi X' T 5 i * Wi X' T 5 j * Wi X' T 5 k
      / (Sij X' i j * Sij X' i k * Sij X' j k) ^ 3 * Qu2 X' i * Qu2 X' j * Qu2 X' k
      * J3 X' T rho' CQ i j k)).
    - apply Sum_ext; intros i Hi. apply Sum_ext; intros j Hj. apply Sum_ext; intros; unfold Rdiv; ring.
    - intros i j k Hi Hj Hk'. rewrite !Wi_lump, !Sij_lump, !HQ, J3_lump by auto. unfold Rdiv; ring.
  Qed.
  Theorem f_qq_lump : f_qq X T rho = f_qq X' T rho'.
  Proof. unfold f_qq. rewrite qq2_lump, qq3_lump. auto. Qed.

  Theorem dq2_lump kd kq : dq2 X T rho kd kq = dq2 X' T rho' kd kq.
  Proof.
    unfold dq2. f_equal.
    rewrite (push2 _ (fun i j => Wi X' T kd i * Wi X' T kq j / Sij X' i j ^ 5 * Mu2 X' i * Qu2 X' j
      * J2 X' T rho' ADQ BDQ i j)).
    - apply Sum_ext; intros i Hi. apply Sum_ext; intros; unfold Rdiv; ring.
    - intros i j Hi Hj. rewrite !Wi_lump, Sij_lump, HMu, HQ, J2_lump by auto. unfold Rdiv; ring.
  Qed.
  Theorem dq3_lump : dq3 X T rho = dq3 X' T rho'.
  Proof.
    unfold dq3. f_equal.
    rewrite (push3 _ (fun i j k => Wi X' T 4 i * Wi X' T 4 j * Wi X' T 4 k
      / (Sij X' i j * Sij X' i k * Sij X' j k) ^ 2
      * (Mu2 X' i * Qu2 X' j * Mu2 X' k + Rlit ALPHA * Mu2 X' i * Qu2 X' j * Qu2 X' k)
      * J3dq X' T rho' i j k)).
    - apply Sum_ext; intros i Hi. apply Sum_ext; intros j Hj. apply Sum_ext; intros; unfold Rdiv; ring.
    - intros i j k Hi Hj Hk'. rewrite !Wi_lump, !Sij_lump, !HMu, !HQ, J3dq_lump by auto.
      unfold Rdiv; ring.
  Qed.
  Theorem f_dq_lump kd kq : f_dq X T rho kd kq = f_dq X' T rho' kd kq.
  Proof. unfold f_dq. rewrite dq2_lump, dq3_lump. auto. Qed.

  Lemma Delta_lump i j : (i < N X)%nat -> (j < N X)%nat ->
    Delta X T rho i j = Delta X' T rho' (phi i) (phi j).
  Proof.
    intros Hi Hj. unfold Delta, Kapij. rewrite Gij_lump, Sij_lump, !HK, !HS, !HEa; auto.
  Qed.
  (** the site fractions of a mixture are those of the lumped mixture *)
  Theorem mass_action_lump xa' xb' : mass_action X' T rho' xa' xb' ->
    mass_action X T rho (fun i => xa' (phi i)) (fun i => xb' (phi i)).
  Proof.
    intros H i Hi. destruct (H (phi i) (Hphi i Hi)) as [A B]. split.
    - eapply eq_trans; [ | exact A]. f_equal. f_equal.
      rewrite (push1 _ (fun j => Nb X' j * xb' j * Delta X' T rho' (phi i) j)).
      + apply Sum_ext; intros; ring.
      + intros j Hj. rewrite HNb, Delta_lump by auto. ring.
    - eapply eq_trans; [ | exact B]. f_equal. f_equal.
      rewrite (push1 _ (fun j => Na X' j * xa' j * Delta X' T rho' (phi i) j)).
      + apply Sum_ext; intros; ring.
      + intros j Hj. rewrite HNa, Delta_lump by auto. ring.
  Qed.
  Theorem f_assoc_lump xa' xb' :
    f_assoc_xx X rho (fun i => xa' (phi i)) (fun i => xb' (phi i)) = f_assoc_xx X' rho' xa' xb'.
  Proof.
    unfold f_assoc_xx. apply push1. intros i Hi. rewrite HNa, HNb by auto. auto.
  Qed.
End SpecLump.

(* --------------------------------------------------------------------- on the model *)

(** [moles'] are the amounts of the components of the full mixture, [moles] those of the
    components of the subset [l]; every component of the full mixture has the total amount of
    its copies in the subset (zero if it does not occur) *)
Definition regrouped (l : list nat) (n' : nat) (moles moles' : list R) : Prop :=
  length moles = length l /\ length moles' = n' /\
  forall j, (j < n')%nat ->
    nth j moles' 0 = Sum i < length l, if Nat.eqb (nth i l 0%nat) j then nth i moles 0 else 0.

Lemma subset_from_records {K : Num} (p p' : params K) l : subset p' l = Some p ->
  exists prs' bin', from_records prs' bin' = Some p.
Proof. unfold subset. intros H. destruct (subset_records _ _); [eauto | discriminate]. Qed.

Section ModelLump.
  Variables (prs : list (pure_record RNum)) (bin : list (list R)).
  Variables (p p' : params RNum) (l : list nat).
  Hypothesis Hp' : from_records prs bin = Some p'.
  Hypothesis Hp : subset p' l = Some p.
  Hypothesis Hph' : phys p'.
  Variables (t v : R) (moles moles' : list R).
  Hypothesis Hreg : regrouped l (length (p_m p')) moles moles'.

  Let W' : wfp p' := wfp_from_records _ _ _ Hp'.
  Let L : lumped p p' l := subset_lumped _ _ _ _ _ Hp' Hp.
  Let W : wfp p.
  Proof. destruct (subset_from_records _ _ _ Hp) as (a & b & E). apply (wfp_from_records _ _ _ E). Qed.

  Let n := length l.
  Let Hn : length (p_m p) = n := lu_n _ _ _ L.
  Let Ind i : (i < n)%nat -> (nth i l 0 < length (p_m p'))%nat := lu_in _ _ _ L i.

  Lemma subset_phys : phys p.
  Proof.
    intros i Hi. rewrite Hn in Hi.
    rewrite (lu_m _ _ _ L), (lu_sigma _ _ _ L), (lu_eps _ _ _ L) by auto.
    apply Hph'. apply Ind; auto.
  Qed.

  Let X := mix_of p.
  Let X' := mix_of p'.
  Let phi i := nth i l 0%nat.
  Let rho i := nth i moles 0 / v.
  Let rho' i := nth i moles' 0 / v.

  Lemma L_rho j : (j < N X')%nat -> rho' j = Sum i < N X, if Nat.eqb (phi i) j then rho i else 0.
  Proof.
    intros Hj. destruct Hreg as (_ & _ & H). unfold rho'. rewrite H by auto.
    change (N X) with (length (p_m p)). rewrite Hn. unfold Rdiv. rewrite <- rsum_scal_r.
    apply Sum_ext; intros i Hi. unfold phi, rho. destruct (Nat.eqb _ _); unfold Rdiv; ring.
  Qed.
  Lemma L_phi i : (i < N X)%nat -> (phi i < N X')%nat.
  Proof. intros Hi. change (N X) with (length (p_m p)) in Hi. rewrite Hn in Hi. apply Ind; auto. Qed.
  Lemma L_m i : (i < N X)%nat -> M X i = M X' (phi i).
  Proof. intros Hi. change (N X) with (length (p_m p)) in Hi. rewrite Hn in Hi. apply (lu_m _ _ _ L); auto. Qed.
  Lemma L_s i : (i < N X)%nat -> Sg X i = Sg X' (phi i).
  Proof. intros Hi. change (N X) with (length (p_m p)) in Hi. rewrite Hn in Hi. apply (lu_sigma _ _ _ L); auto. Qed.
  Lemma L_e i : (i < N X)%nat -> Ep X i = Ep X' (phi i).
  Proof. intros Hi. change (N X) with (length (p_m p)) in Hi. rewrite Hn in Hi. apply (lu_eps _ _ _ L); auto. Qed.
  Lemma L_mu i : (i < N X)%nat -> Mu2 X i = Mu2 X' (phi i).
  Proof. intros Hi. change (N X) with (length (p_m p)) in Hi. rewrite Hn in Hi. apply (lu_mu2 _ _ _ L); auto. Qed.
  Lemma L_q i : (i < N X)%nat -> Qu2 X i = Qu2 X' (phi i).
  Proof. intros Hi. change (N X) with (length (p_m p)) in Hi. rewrite Hn in Hi. apply (lu_q2 _ _ _ L); auto. Qed.
  Lemma L_k i : (i < N X)%nat -> Kab X i = Kab X' (phi i).
  Proof. intros Hi. change (N X) with (length (p_m p)) in Hi. rewrite Hn in Hi. apply (lu_kab _ _ _ L); auto. Qed.
  Lemma L_ea i : (i < N X)%nat -> Eab X i = Eab X' (phi i).
  Proof. intros Hi. change (N X) with (length (p_m p)) in Hi. rewrite Hn in Hi. apply (lu_eab _ _ _ L); auto. Qed.
  Lemma L_kij i j : (i < N X)%nat -> (j < N X)%nat -> Kij X i j = Kij X' (phi i) (phi j).
  Proof.
    intros Hi Hj. change (N X) with (length (p_m p)) in Hi, Hj. rewrite Hn in Hi, Hj.
    apply (lu_k_ij _ _ _ L); auto.
  Qed.
  Lemma L_na i : (i < N X)%nat -> Na X i = Na X' (phi i).
  Proof. intros Hi. change (N X) with (length (p_m p)) in Hi. rewrite Hn in Hi. apply (lu_na _ _ _ L); auto. Qed.
  Lemma L_nb i : (i < N X)%nat -> Nb X i = Nb X' (phi i).
  Proof. intros Hi. change (N X) with (length (p_m p)) in Hi. rewrite Hn in Hi. apply (lu_nb _ _ _ L); auto. Qed.

  Hypothesis PS : phys_state p t v moles.

  Lemma lump_phys_state : phys_state p' t v moles'.
  Proof.
    destruct PS as [Pt Pv Pl Pn Pe Peta]. destruct Hreg as (R1 & R2 & R3). rewrite Hn in *.
    constructor; auto.
    - intros j Hj. rewrite R3 by auto. apply rsum_nonneg. intros i Hi. apply seq_in in Hi.
      destruct (Nat.eqb _ _); [auto | lra].
    - destruct Pe as (i & Hi & P). exists (nth i l 0%nat). split; [apply Ind; auto | ].
      rewrite R3 by (apply Ind; auto). apply (rsum_pos _ _ i).
      + intros k Hk. apply seq_in in Hk. destruct (Nat.eqb _ _); [auto | lra].
      + apply seq_in; auto.
      + rewrite Nat.eqb_refl. auto.
    - pose proof (Eta_lump X X' t phi rho rho' L_phi L_rho L_m L_s L_e) as E.
      unfold X', rho' in E. rewrite <- E. auto.
  Qed.

  Let s := @state_new RNum t v moles.
  Let s' := @state_new RNum t v moles'.
  Let PS' := lump_phys_state.

  Theorem lump_hs : a_hs p s = a_hs p' s'.
  Proof.
    unfold s, s'. rewrite (hs_textbook p W subset_phys t v moles PS), (hs_textbook p' W' Hph' t v moles' PS').
    f_equal. apply (f_hs_lump X X' t phi rho rho' L_phi L_rho L_m L_s L_e).
  Qed.
  Theorem lump_hc : a_hc p s = a_hc p' s'.
  Proof.
    unfold s, s'. rewrite (hc_textbook p W subset_phys t v moles PS), (hc_textbook p' W' Hph' t v moles' PS').
    f_equal. apply (f_hc_lump X X' t phi rho rho' L_phi L_rho L_m L_s L_e).
  Qed.
  Theorem lump_disp : a_disp p s = a_disp p' s'.
  Proof.
    unfold s, s'. rewrite (disp_textbook p W t v moles PS), (disp_textbook p' W' t v moles' PS').
    f_equal. apply (f_disp_lump X X' t phi rho rho' L_phi L_rho L_m L_s L_e L_kij).
  Qed.
  Theorem lump_dipole : a_dipole p s = a_dipole p' s'.
  Proof.
    unfold s, s'. rewrite (dipole_textbook p W subset_phys t v moles PS), (dipole_textbook p' W' Hph' t v moles' PS').
    f_equal. apply (f_dd_lump X X' t phi rho rho' L_phi L_rho L_m L_s L_e L_mu).
  Qed.
  Theorem lump_quadrupole :
    (forall i j, (i < N X')%nat -> (j < N X')%nat -> Qu2 X' i <> 0 -> Qu2 X' j <> 0 -> Sg X' i = Sg X' j) ->
    a_quadrupole p s = a_quadrupole p' s'.
  Proof.
    intros H. unfold s, s'.
    rewrite (quadrupole_textbook p W subset_phys t v moles PS), (quadrupole_textbook p' W' Hph' t v moles' PS'); auto.
    - f_equal. apply (f_qq_lump X X' t phi rho rho' L_phi L_rho L_m L_s L_e L_q).
    - intros i j Hi Hj. change (mix_of p) with X.
      rewrite !(L_q i), !(L_q j), !(L_s i), !(L_s j) by auto.
      intros; apply H; auto; apply L_phi; auto.
  Qed.
  Theorem lump_dq var : a_dq p var s = a_dq p' var s'.
  Proof.
    unfold s, s'. rewrite (dq_textbook p W subset_phys t v moles PS), (dq_textbook p' W' Hph' t v moles' PS').
    f_equal. apply (f_dq_lump X X' t phi rho rho' L_phi L_rho L_m L_s L_e L_mu L_q).
  Qed.

  (** association with one associating species on both sides *)
  Theorem lump_assoc : p_nassoc p = 1%nat -> p_nassoc p' = 1%nat -> a_assoc p s = a_assoc p' s'.
  Proof.
    intros E E'.
    rewrite (w_na _ W) in E. rewrite (w_na _ W') in E'.
    destruct (p_assoc_comp p) as [ | a [ | ]] eqn:Ea; try discriminate.
    destruct (p_assoc_comp p') as [ | a' [ | ]] eqn:Ea'; try discriminate.
    pose proof (assoc_lt p W a Ea) as La. pose proof (assoc_lt p' W' a' Ea') as La'.
    change (length (p_m p)) with (N X) in La.
    assert (Eaa : phi a = a').
    { apply (proj1 (assoc_unique p' W' a' Ea' (phi a) (L_phi a La))).
      change (mix_of p') with X'. rewrite <- (L_k a) by auto.
      apply (assoc_unique p W a Ea a La). auto. }
    (* only copies of a' are associating: there is exactly one *)
    assert (Hone : forall i, (i < N X)%nat -> phi i = a' -> i = a).
    { intros i Hi Hia. apply (assoc_unique p W a Ea i Hi). change (mix_of p) with X.
      rewrite (L_k i Hi), Hia. apply (assoc_unique p' W' a' Ea' a' La'). auto. }
    assert (Hm : nth a' moles' 0 = nth a moles 0).
    { destruct Hreg as (_ & _ & R3). rewrite R3 by auto.
      change (N X) with (length (p_m p)) in La, Hone. rewrite Hn in La, Hone.
      rewrite (Sum_single n a); auto.
      - change (nth a l 0%nat) with (phi a). rewrite Eaa, Nat.eqb_refl. auto.
      - intros j Hj Hne. destruct (Nat.eqb_spec (nth j l 0%nat) a'); auto.
        exfalso. apply Hne. apply Hone; auto. }
    unfold a_assoc. rewrite Ea, Ea'. cbv zeta. change (ixn [a] 0) with a. change (ixn [a'] 0) with a'.
    change (s_t s) with t. change (s_t s') with t. unfold s, s'.
    rewrite (assoc_deltarho p W subset_phys t v moles PS a Ea).
    rewrite (assoc_deltarho p' W' Hph' t v moles' PS' a' Ea').
    fold X X'. change (fun i : nat => nth i moles 0 / v) with rho. change (fun i : nat => nth i moles' 0 / v) with rho'.
    rewrite (Delta_lump X X' t phi rho rho' L_phi L_rho L_m L_s L_e L_k L_ea a a La La), Eaa.
    change (@ix RNum (p_na p) a) with (Na X a). change (@ix RNum (p_na p') a') with (Na X' a').
    change (@ix RNum (p_nb p) a) with (Nb X a). change (@ix RNum (p_nb p') a') with (Nb X' a').
    rewrite (L_na a La), (L_nb a La), Eaa.
    change (@ix RNum (s_moles (state_new (K := RNum) t v moles)) a) with (nth a moles 0).
    change (@ix RNum (s_moles (state_new (K := RNum) t v moles')) a') with (nth a' moles' 0).
    unfold rho', rho. rewrite Hm. reflexivity.
  Qed.

  (** on the level of exact site fractions the association energy can be regrouped without
      any restriction *)
  Theorem lump_mass_action xa' xb' : mass_action X' t rho' xa' xb' ->
    mass_action X t rho (fun i => xa' (phi i)) (fun i => xb' (phi i)) /\
    f_assoc_xx X rho (fun i => xa' (phi i)) (fun i => xb' (phi i)) = f_assoc_xx X' rho' xa' xb'.
  Proof.
    intros H. split.
    - apply (mass_action_lump X X' t phi rho rho' L_phi L_rho L_m L_s L_e L_k L_ea L_na L_nb); auto.
    - apply (f_assoc_lump X X' phi rho rho' L_phi L_rho L_na L_nb).
  Qed.
End ModelLump.
