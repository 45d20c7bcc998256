(** Sum of contributions, extensivity. *)
From Coq Require Import ZArith QArith Reals Lra Lia List Bool.
From Verif Require Import Num RNum RSum Tables M_Params F_Params M_Eos Spec F_Spec F_SpecPolar F_SpecAssoc F_Contrib.
Import ListNotations.
Local Open Scope R_scope.

(* --------------------------------------------------- contributions that are left out *)

(** association part of the residual, by number of associating components *)
Definition assoc_term (lu : lu_solver RNum) (o : options RNum) (p : params RNum) (s : state RNum) : option R :=
  match p_nassoc p with
  | O => Some 0
  | 1%nat => Some (a_assoc p s)
  | _ => a_cross_assoc lu (o_max_iter o) (o_tol o) p s
  end.

Lemma a_dipole_none p (s : state RNum) : p_ndipole p = 0%nat -> a_dipole p s = 0.
Proof. intros H. unfold a_dipole, dipole_phi2. rewrite H, pade_R. unfold pade2; rn. cbn. rn. unfold Rdiv. ring. Qed.
Lemma a_quadrupole_none p (s : state RNum) : p_nquadpole p = 0%nat -> a_quadrupole p s = 0.
Proof. intros H. unfold a_quadrupole, quad_phi2. rewrite H, pade_R. unfold pade2; rn. cbn. rn. unfold Rdiv. ring. Qed.
Lemma a_dq_none_d p var (s : state RNum) : p_ndipole p = 0%nat -> a_dq p var s = 0.
Proof. intros H. unfold a_dq, dq_phi2. rewrite H, pade_R. unfold pade2; rn. cbn. rn. unfold Rdiv. ring. Qed.
Lemma a_dq_none_q p var (s : state RNum) : p_nquadpole p = 0%nat -> a_dq p var s = 0.
Proof.
  intros H. unfold a_dq, dq_phi2. rewrite H, pade_R. unfold pade2.
  set (l := flat_map _ _). replace l with (@nil R).
  - unfold nsubs. rn. cbn. rn. unfold Rdiv. ring.
  - unfold l. generalize (seq 0 (p_ndipole p)). intros q. induction q; simpl; auto.
Qed.

Theorem residual_total lu o p s :
  residual lu (with_options p o) s =
  match assoc_term lu o p s with
  | Some a => Some (a_hs p s + a_hc p s + a_disp p s + a_dipole p s + a_quadrupole p s
                    + a_dq p (o_dq o) s + a)
  | None => None
  end.
Proof.
  unfold residual, with_options. cbn [e_contributions e_params].
  unfold assoc_term.
  destruct (p_ndipole p) as [ | nd] eqn:Ed; destruct (p_nquadpole p) as [ | nq] eqn:Eq; cbn [Nat.ltb Nat.leb andb];
    rewrite ?(a_dipole_none p s Ed), ?(a_quadrupole_none p s Eq), ?(a_dq_none_d p (o_dq o) s Ed), ?(a_dq_none_q p (o_dq o) s Eq).
  all: destruct (p_nassoc p) as [ | [ | na]]; cbn [app map eval_contribution collect_opt];
    [ | | destruct (a_cross_assoc lu (o_max_iter o) (o_tol o) p s); [ | reflexivity]];
    f_equal; rewrite nsum_R; cbn [rsum]; rewrite ?Rplus_0_r, ?Rplus_assoc, ?Rplus_0_l; reflexivity.
Qed.

(* ------------------------------------------------------------------------ extensivity *)

Definition scaled (k : R) (moles : list R) : list R := map (fun n => k * n) moles.

Lemma rsum_scaled k moles : rsum (scaled k moles) (fun x => x) = k * rsum moles (fun x => x).
Proof. unfold scaled. rewrite rsum_map, rsum_scal. reflexivity. Qed.

Section Extensive.
  Variables (t v k : R) (moles : list R).
  Hypothesis Hk : k <> 0.
  Let s := @state_new RNum t v moles.
  Let s' := @state_new RNum t (k * v) (scaled k moles).

  Lemma div_scale a b : k * a / (k * b) = a / b.
  Proof.
    unfold Rdiv. rewrite Rinv_mult. replace (k * a * (/ k * / b)) with (k * / k * (a * / b)) by ring.
    rewrite Rinv_r by auto. ring.
  Qed.

  Lemma scaled_rho : s_rho s' = s_rho s.
  Proof.
    unfold s, s', state_new, scaled. cbn [s_rho]. rewrite map_map. apply map_ext.
    intros a. rn. apply div_scale.
  Qed.
  Lemma scaled_x : s_x s' = s_x s.
  Proof.
    unfold s, s', state_new. cbn [s_x]. rewrite !nsum_R, rsum_scaled. unfold scaled. rewrite map_map. apply map_ext.
    intros a. rn. apply div_scale.
  Qed.
  Lemma scaled_moles i : @ix RNum (s_moles s') i = k * @ix RNum (s_moles s) i.
  Proof.
    change (nth i (scaled k moles) 0 = k * nth i moles 0). unfold scaled.
    destruct (Nat.lt_ge_cases i (length moles)) as [H | H].
    - rewrite (nth_indep _ 0 (k * 0)) by (rewrite map_length; auto). apply (map_nth (fun n => k * n)).
    - rewrite !nth_overflow by (rewrite ?map_length; auto). ring.
  Qed.

  Variable p : params RNum.
  Theorem ext_hs : a_hs p s' = k * a_hs p s.
  Proof.
    unfold a_hs. rewrite scaled_rho, scaled_x. change (s_t s') with t. change (s_t s) with t.
    change (s_v s') with (k * v). change (s_v s) with v.
    set (A := (_ + _)%num). rn. unfold Rdiv. ring.
  Qed.
  Theorem ext_hc : a_hc p s' = k * a_hc p s.
  Proof.
    unfold a_hc. rewrite scaled_rho. change (s_t s') with t. change (s_t s) with t.
    change (s_v s') with (k * v). change (s_v s) with v.
    set (A := nsumi _ _). rn. ring.
  Qed.
  Theorem ext_disp : a_disp p s' = k * a_disp p s.
  Proof.
    unfold a_disp. rewrite scaled_rho, scaled_x. change (s_t s') with t. change (s_t s) with t.
    change (s_v s') with (k * v). change (s_v s) with v.
    set (A := (_ - _)%num). rn. ring.
  Qed.
  Theorem ext_dipole : a_dipole p s' = k * a_dipole p s.
  Proof.
    unfold a_dipole. rewrite scaled_rho. change (s_t s') with t. change (s_t s) with t.
    change (s_v s') with (k * v). change (s_v s) with v. rewrite !pade_R. cbv zeta.
    match goal with |- context [pade2 ?a ?b] => set (P2 := pade2 a b) end. change (k * v * P2 = k * (v * P2)). ring.
  Qed.
  Theorem ext_quadrupole : a_quadrupole p s' = k * a_quadrupole p s.
  Proof.
    unfold a_quadrupole. rewrite scaled_rho. change (s_t s') with t. change (s_t s) with t.
    change (s_v s') with (k * v). change (s_v s) with v. rewrite !pade_R. cbv zeta.
    match goal with |- context [pade2 ?a ?b] => set (P2 := pade2 a b) end. change (k * v * P2 = k * (v * P2)). ring.
  Qed.
  Theorem ext_dq var : a_dq p var s' = k * a_dq p var s.
  Proof.
    unfold a_dq. rewrite scaled_rho. change (s_t s') with t. change (s_t s) with t.
    change (s_v s') with (k * v). change (s_v s) with v. rewrite !pade_R. cbv zeta.
    match goal with |- context [pade2 ?a ?b] => set (P2 := pade2 a b) end. change (k * v * P2 = k * (v * P2)). ring.
  Qed.
  Theorem ext_assoc : a_assoc p s' = k * a_assoc p s.
  Proof.
    unfold a_assoc. rewrite scaled_rho, scaled_moles. change (s_t s') with t. change (s_t s) with t.
    destruct (n0 <? ix (p_nb p) (ixn (p_assoc_comp p) 0))%num.
    - set (A := (_ + _)%num). rn. ring.
    - set (A := f_assoc _). rn. ring.
  Qed.
  Theorem ext_cross lu it tol : a_cross_assoc lu it tol p s' =
    match a_cross_assoc lu it tol p s with Some a => Some (k * a) | None => None end.
  Proof.
    unfold a_cross_assoc. rewrite scaled_rho. change (s_t s') with t. change (s_t s) with t.
    change (s_v s') with (k * v). change (s_v s) with v.
    destruct (fst _) as [a | ]; auto. f_equal. rn. ring.
  Qed.
  Theorem ext_residual lu o : residual lu (with_options p o) s' =
    match residual lu (with_options p o) s with Some a => Some (k * a) | None => None end.
  Proof.
    rewrite !residual_total. unfold assoc_term.
    rewrite ext_hs, ext_hc, ext_disp, ext_dipole, ext_quadrupole, ext_dq, ext_assoc, ext_cross.
    destruct (p_nassoc p) as [ | [ | na]]; [ | | destruct (a_cross_assoc lu _ _ p s); auto]; f_equal; ring.
  Qed.
End Extensive.
