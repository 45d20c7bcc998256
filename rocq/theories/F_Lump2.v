(** Regrouping of components: the three uses (relabelling, absent components, copies) and the
    quadrupole contribution as it is coded. *)
From Coq Require Import ZArith QArith Reals Lra Lia List Bool Permutation Sorted.
From Verif Require Import Num RNum RSum Tables M_Params F_Params M_Eos Spec F_Spec F_SpecPolar F_SpecAssoc F_Contrib F_Lump.
Import ListNotations.
Local Open Scope R_scope.

(** moles of the listed components *)
Definition pick (moles : list R) (l : list nat) : list R := map (fun i => nth i moles 0) l.

Lemma nth_pick moles l i : (i < length l)%nat -> nth i (pick moles l) 0 = nth (nth i l 0%nat) moles 0.
Proof.
  intros H. unfold pick. rewrite (nth_indep _ 0 (nth 0%nat moles 0)) by (rewrite map_length; auto).
  apply (map_nth (fun i => nth i moles 0)).
Qed.

(** selecting every component that is present, each once and in any order, is a regrouping *)
Lemma regrouped_pick l n moles : NoDup l -> length moles = n ->
  (forall j, (j < n)%nat -> ~ In j l -> nth j moles 0 = 0) -> regrouped l n (pick moles l) moles.
Proof.
  intros Hd Hl Hz. split; [unfold pick; apply map_length | split; auto].
  intros j Hj. destruct (in_dec Nat.eq_dec j l) as [Hi | Hi].
  - destruct (In_nth l j 0%nat Hi) as (i & Hil & Ei).
    rewrite (Sum_single _ i) by
      (auto; intros k Hk Hne; destruct (Nat.eqb_spec (nth k l 0%nat) j) as [E | ]; auto;
       exfalso; apply Hne; apply (proj1 (NoDup_nth l 0%nat) Hd); congruence).
    rewrite Ei, Nat.eqb_refl. rewrite nth_pick, Ei; auto.
  - rewrite Hz by auto. symmetry. apply rsum_zero. intros i Hi'. apply seq_in in Hi'.
    destruct (Nat.eqb_spec (nth i l 0%nat) j) as [E | ]; auto.
    exfalso. apply Hi. subst j. apply nth_In; auto.
Qed.

(** total moles of the copies of component [j] *)
Definition merge (l : list nat) (n : nat) (moles : list R) : list R :=
  mk1 n (fun j => Sum i < length l, if Nat.eqb (nth i l 0%nat) j then nth i moles 0 else 0).
Lemma regrouped_merge l n moles : length moles = length l -> regrouped l n moles (merge l n moles).
Proof.
  intros. split; auto. split; [apply mk1_length | ]. intros. unfold merge. rewrite nth_mk1 by auto. reflexivity.
Qed.

Section Back.
  Variables (prs : list (pure_record RNum)) (bin : list (list R)).
  Variables (p p' : params RNum) (l : list nat).
  Hypothesis Hp' : from_records prs bin = Some p'.
  Hypothesis Hp : subset p' l = Some p.
  Variables (t v : R) (moles' : list R).
  Hypothesis Hd : NoDup l.
  Hypothesis Hz : forall j, (j < length (p_m p'))%nat -> ~ In j l -> nth j moles' 0 = 0.
  Hypothesis PS' : phys_state p' t v moles'.

  Lemma pick_regrouped : regrouped l (length (p_m p')) (pick moles' l) moles'.
  Proof. apply regrouped_pick; auto. apply PS'. Qed.

  Lemma pick_phys_state : phys_state p t v (pick moles' l).
  Proof.
    pose proof (subset_lumped _ _ _ _ _ Hp' Hp) as L.
    destruct PS' as [Pt Pv Pl Pn Pe Peta].
    assert (Hn := lu_n _ _ _ L).
    constructor; auto.
    - rewrite Hn. unfold pick. apply map_length.
    - intros i Hi. rewrite Hn in Hi. rewrite nth_pick by auto. apply Pn. apply (lu_in _ _ _ L); auto.
    - destruct Pe as (j & Hj & P). destruct (in_dec Nat.eq_dec j l) as [Hi | Hi].
      + destruct (In_nth l j 0%nat Hi) as (i & Hil & Ei). exists i. rewrite Hn. split; auto.
        rewrite nth_pick by auto. rewrite Ei. auto.
      + rewrite Hz in P by auto. lra.
    - rewrite (Eta_lump (mix_of p) (mix_of p') t (fun i => nth i l 0%nat) _ (fun i => nth i moles' 0 / v)); auto.
      + intros i Hi. apply (lu_in _ _ _ L). rewrite <- Hn. auto.
      + intros j Hj. rewrite (proj2 (proj2 pick_regrouped) j) by auto.
        change (N (mix_of p)) with (length (p_m p)). rewrite Hn. unfold Rdiv. rewrite <- rsum_scal_r.
        apply Sum_ext; intros i Hi. destruct (Nat.eqb _ _); ring.
      + intros i Hi. apply (lu_m _ _ _ L); rewrite <- Hn; auto.
      + intros i Hi. apply (lu_sigma _ _ _ L); rewrite <- Hn; auto.
      + intros i Hi. apply (lu_eps _ _ _ L); rewrite <- Hn; auto.
  Qed.
End Back.

(** the coded quadrupole term is compatible with regroupings that keep the order *)
Section QuadOrder.
  Variables (prs : list (pure_record RNum)) (bin : list (list R)).
  Variables (p p' : params RNum) (l : list nat).
  Hypothesis Hp' : from_records prs bin = Some p'.
  Hypothesis Hp : subset p' l = Some p.
  Hypothesis Hph' : phys p'.
  Variables (t v : R) (moles moles' : list R).
  Hypothesis Hreg : regrouped l (length (p_m p')) moles moles'.
  Hypothesis PS : phys_state p t v moles.
  Hypothesis Hmono : forall i j, (i <= j < length l)%nat -> (nth i l 0 <= nth j l 0)%nat.

  Let phi i := nth i l 0%nat.
  Theorem lump_quadrupole_mono :
    a_quadrupole p (@state_new RNum t v moles) = a_quadrupole p' (@state_new RNum t v moles').
  Proof.
    pose proof (subset_lumped _ _ _ _ _ Hp' Hp) as L. pose proof (wfp_from_records _ _ _ Hp') as W'.
    pose proof (subset_phys _ _ _ _ _ Hp' Hp Hph') as Hph.
    pose proof (lump_phys_state _ _ _ _ _ Hp' Hp t v moles moles' Hreg PS) as PS'.
    assert (W : wfp p) by (destruct (subset_from_records _ _ _ Hp) as (a & b & E); apply (wfp_from_records _ _ _ E)).
    rewrite (quadrupole_code p W Hph t v moles PS), (quadrupole_code p' W' Hph' t v moles' PS').
    pose proof (L_phi _ _ _ _ _ Hp' Hp) as Lphi.
    pose proof (L_rho _ _ _ _ _ Hp' Hp v moles moles' Hreg) as Lrho.
    pose proof (L_m _ _ _ _ _ Hp' Hp) as Lm. pose proof (L_s _ _ _ _ _ Hp' Hp) as Ls.
    pose proof (L_e _ _ _ _ _ Hp' Hp) as Le. pose proof (L_q _ _ _ _ _ Hp' Hp) as Lq.
    f_equal. f_equal.
    - unfold qq2_code. f_equal.
      set (X := mix_of p) in *. set (X' := mix_of p') in *.
      set (rho := fun i => nth i moles 0 / v). set (rho' := fun i => nth i moles' 0 / v).
      rewrite (push2 X X' (fun i => nth i l 0%nat) rho rho' Lphi Lrho _ (fun i j => Wi X' t 5 i * Wi X' t 5 j / Sg X' (Nat.min i j) ^ 7 * Qu2 X' i * Qu2 X' j
        * J2 X' t rho' AQ BQ i j)).
      + apply Sum_ext; intros i Hi. apply Sum_ext; intros j Hj.
        change (nth i moles' 0 / v) with (rho' i). change (nth j moles' 0 / v) with (rho' j). unfold Rdiv; ring.
      + intros i j Hi Hj.
        change (nth i moles 0 / v) with (rho i). change (nth j moles 0 / v) with (rho j).
        rewrite !(Wi_lump X X' t (fun i => nth i l 0%nat) Ls Le), !Lq,
          (J2_lump X X' t (fun i => nth i l 0%nat) rho rho' Lphi Lrho Lm Ls Le) by auto.
        assert (Em : Sg X (Nat.min i j) = Sg X' (Nat.min (nth i l 0%nat) (nth j l 0%nat))).
        { rewrite Ls by (destruct (Nat.min_spec i j) as [[? ->] | [? ->]]; auto). f_equal.
          change (N X) with (length (p_m p)) in Hi, Hj. rewrite (lu_n _ _ _ L) in Hi, Hj.
          destruct (Nat.le_gt_cases i j) as [H | H].
          - rewrite Nat.min_l by auto. symmetry. apply Nat.min_l, Hmono. lia.
          - rewrite Nat.min_r by lia. symmetry. apply Nat.min_r, Hmono. lia. }
        rewrite Em. unfold Rdiv; ring.
    - apply (qq3_lump (mix_of p) (mix_of p') t (fun i => nth i l 0%nat) _ _ Lphi Lrho Lm Ls Le Lq).
  Qed.
End QuadOrder.
