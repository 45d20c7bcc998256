(** Transfer of the contributions of the equation of state. *)
From Coq Require Import ZArith QArith Reals Lra Lia List Bool.
From Verif Require Import Num RNum RSum Tables M_Params F_Params M_Eos Spec F_Spec F_SpecPolar F_SpecAssoc
  F_Contrib F_Cross F_Transfer.
From Verif Require F_TransferS.
Import ListNotations.
Local Open Scope R_scope.
Set Bullet Behavior "Strict Subproofs".

Section Contributions.
  Context {Pt : Type} {K : Num} {x0 : Pt} (TR : Transfer K x0).
  Notation rl := (rel TR).
  Variable p : params RNum.
  Hypothesis W : wfp p.
  Hypothesis Hph : phys p.
  Let q : params K := plift (emb TR) p.
  Let n := length (p_m p).
  Variables (t v : Pt -> R) (t2 v2 : car K) (moles : Pt -> list R) (moles2 : list (car K)).
  Hypothesis Tt : rl t t2.
  Hypothesis Tv : rl v v2.
  Hypothesis Tm : lrel TR moles moles2.
  Hypothesis PS : phys_state p (t x0) (v x0) (moles x0).
  Let X := mix_of p.
  Let rho0 := fun i => nth i (moles x0) 0 / v x0.
  Let s := fun x => @state_new RNum (t x) (v x) (moles x).
  Let s2 := @state_new K t2 v2 moles2.

  Let Ht : 0 < t x0 := ps_t _ _ _ _ PS.
  Let Hv : 0 < v x0 := ps_v _ _ _ _ PS.
  Let L := ps_len _ _ _ _ PS.

  Lemma tr_rho : lrel TR (fun x => s_rho (s x)) (s_rho s2).
  Proof.
    cbn. apply (lrel_map TR (fun x m => @ndiv RNum m (v x))); auto.
    intros f a H. tr TR. cbn. lra.
  Qed.
  Lemma total_pos : @nsum RNum (moles x0) <> 0.
  Proof.
    rewrite nsum_R. rewrite (moles_sum p (v x0) (moles x0)).
    - pose proof (Rho_pos p (t x0) (v x0) (moles x0) PS). apply Rgt_not_eq. apply Rmult_lt_0_compat; auto.
    - apply (ps_len _ _ _ _ PS).
    - lra.
  Qed.
  Lemma tr_x : lrel TR (fun x => s_x (s x)) (s_x s2).
  Proof.
    cbn. apply (lrel_map TR (fun x m => @ndiv RNum m (@nsum RNum (moles x)))); auto.
    intros f a H. apply (tr_div _ _ TR); auto.
    - apply (tr_nsum TR); auto.
    - apply total_pos.
  Qed.

  (** the state satisfies the hypotheses of F_TransferS *)
  Lemma base_z k : 0 < zeta (p_m p) (s_rho (s x0)) (hs_diameter p (s_t (s x0))) k.
  Proof. pose proof (zeta_spec p W (t x0) (v x0) (moles x0) L k) as E. pose proof (Zeta_pos p Hph (t x0) (v x0) (moles x0) PS k) as P. rewrite <- E in P. exact P. Qed.
  Lemma base_z3 : zeta (p_m p) (s_rho (s x0)) (hs_diameter p (s_t (s x0))) 3 < 1.
  Proof. pose proof (zeta_spec p W (t x0) (v x0) (moles x0) L 3) as E. pose proof (ps_eta _ _ _ _ PS) as P. unfold Eta in P. rewrite <- E in P. exact P. Qed.
  Lemma base_x i : (i < n)%nat -> @ix RNum (s_x (s x0)) i = nth i (moles x0) 0 / rsum (moles x0) (fun x => x).
  Proof. intros Hi. exact (s_x_ix p (t x0) (v x0) (moles x0) L i Hi). Qed.
  Lemma base_total : 0 < rsum (moles x0) (fun x => x).
  Proof.
    rewrite (moles_sum p (v x0) (moles x0)); auto; [ | lra].
    apply Rmult_lt_0_compat; auto. apply (Rho_pos p (t x0) (v x0) (moles x0) PS).
  Qed.
  Lemma base_x0 i : (i < n)%nat -> 0 <= @ix RNum (s_x (s x0)) i.
  Proof.
    intros Hi. rewrite base_x by auto. apply Rmult_le_pos; [apply (ps_nonneg _ _ _ _ PS); auto | ].
    left. apply Rinv_0_lt_compat, base_total.
  Qed.
  Lemma base_x1 : exists i, (i < n)%nat /\ 0 < @ix RNum (s_x (s x0)) i.
  Proof.
    destruct (ps_nonempty _ _ _ _ PS) as (i & Hi & H). exists i. split; auto. rewrite base_x by auto.
    apply Rdiv_lt_0_compat; auto. apply base_total.
  Qed.
  Lemma base_eta : 0 <= packing p (s_t (s x0)) (s_rho (s x0)) < 1.
  Proof.
    pose proof (packing_spec p W (t x0) (v x0) (moles x0) L) as E.
    pose proof (Zeta_pos p Hph (t x0) (v x0) (moles x0) PS 3) as P. pose proof (ps_eta _ _ _ _ PS) as Q.
    unfold Eta in *. rewrite <- E in P, Q. split; [left; exact P | exact Q].
  Qed.

  Theorem tr_hs : rl (fun x => a_hs p (s x)) (a_hs q s2).
  Proof. exact (F_TransferS.tr_hs TR p W Hph s s2 Tt Tv tr_rho tr_x Ht base_z3 base_x0 base_x1). Qed.
  Theorem tr_hc : rl (fun x => a_hc p (s x)) (a_hc q s2).
  Proof. exact (F_TransferS.tr_hc TR p W Hph s s2 Tt Tv tr_rho Ht (Rlt_le _ _ (base_z 2)) base_z3). Qed.
  Theorem tr_disp : rl (fun x => a_disp p (s x)) (a_disp q s2).
  Proof. exact (F_TransferS.tr_disp TR p Hph s s2 Tt Tv tr_rho tr_x Ht base_x0 base_x1 base_eta). Qed.
  Lemma tr_packing : rl (fun x => packing p (t x) (s_rho (s x))) (packing q t2 (s_rho s2)).
  Proof. exact (F_TransferS.tr_packing TR p s s2 Tt tr_rho Ht). Qed.
  Section Eta.
    Variables (e : Pt -> R) (e2 : car K).
    Hypothesis He : rl e e2.
    Lemma tr_quad_phi2 : rl (fun x => quad_phi2 p (t x) (s_rho (s x)) (e x)) (quad_phi2 q t2 (s_rho s2) e2).
    Proof. exact (F_TransferS.tr_quad_phi2 TR p W Hph s s2 Tt tr_rho Ht e e2 He). Qed.
    Lemma tr_quad_phi3 : rl (fun x => quad_phi3 p (t x) (s_rho (s x)) (e x)) (quad_phi3 q t2 (s_rho s2) e2).
    Proof. exact (F_TransferS.tr_quad_phi3 TR p W Hph s s2 Tt tr_rho Ht e e2 He). Qed.
  End Eta.
  Theorem tr_dipole :
    padeok TR (fun x => dipole_phi2 p (t x) (s_rho (s x)) (packing p (t x) (s_rho (s x))))
              (fun x => dipole_phi3 p (t x) (s_rho (s x)) (packing p (t x) (s_rho (s x)))) ->
    rl (fun x => a_dipole p (s x)) (a_dipole q s2).
  Proof. exact (F_TransferS.tr_dipole TR p W Hph s s2 Tt Tv tr_rho Ht). Qed.
  Theorem tr_quadrupole :
    padeok TR (fun x => quad_phi2 p (t x) (s_rho (s x)) (packing p (t x) (s_rho (s x))))
              (fun x => quad_phi3 p (t x) (s_rho (s x)) (packing p (t x) (s_rho (s x)))) ->
    rl (fun x => a_quadrupole p (s x)) (a_quadrupole q s2).
  Proof. exact (F_TransferS.tr_quadrupole TR p W Hph s s2 Tt Tv tr_rho Ht). Qed.
  Theorem tr_dq var :
    padeok TR (fun x => dq_phi2 p var (t x) (s_rho (s x)) (packing p (t x) (s_rho (s x))))
              (fun x => dq_phi3 p (t x) (s_rho (s x)) (packing p (t x) (s_rho (s x)))) ->
    rl (fun x => a_dq p var (s x)) (a_dq q var s2).
  Proof. exact (F_TransferS.tr_dq TR p W Hph s s2 Tt Tv tr_rho Ht var). Qed.

  (* association *)
  Lemma tr_n2 : rl (fun x => assoc_n2 p (t x) (s_rho (s x))) (assoc_n2 q t2 (s_rho s2)).
  Proof. exact (F_TransferS.tr_n2 TR p s s2 Tt tr_rho Ht). Qed.
  Lemma tr_strength ai aj n2 n3i xi n2' n3i' xi' : (ai < n)%nat -> (aj < n)%nat ->
    rl n2 n2' -> rl n3i n3i' -> rl xi xi' ->
    rl (fun x => association_strength p (t x) (seg_radius p (t x)) (n2 x) (n3i x) (xi x) ai aj)
       (association_strength q t2 (seg_radius q t2) n2' n3i' xi' ai aj).
  Proof. exact (F_TransferS.tr_strength TR p W Hph s (@state_new K t2 n0 nil) Tt Ht ai aj n2 n3i xi n2' n3i' xi'). Qed.
  Let n3i := fun x => @nrecip RNum (@nadd RNum (@nopp RNum (packing p (t x) (s_rho (s x)))) (@nlit RNum 1%Q)).
  Let n3i2 := nrecip (nadd (nopp (packing q t2 (s_rho s2))) (nlit 1%Q)).
  Lemma tr_n3i : rl n3i n3i2.
  Proof. exact (F_TransferS.tr_n3i TR p s s2 Tt tr_rho Ht base_eta). Qed.

  Lemma tr_f_assoc f f2 : rl f f2 -> 0 < f x0 -> rl (fun x => @f_assoc RNum (f x)) (f_assoc f2).
  Proof. exact (F_TransferS.tr_f_assoc TR f f2). Qed.

  Variable a : nat.
  Hypothesis Ha : p_assoc_comp p = [a].
  Hypothesis Hap : assoc_phys p.
  Let na := Na X a.
  Let nb := Nb X a.
  Definition drho (x : Pt) : R :=
    @nmul RNum (association_strength p (t x) (seg_radius p (t x)) (assoc_n2 p (t x) (s_rho (s x))) (n3i x) (@n1 RNum) a a)
      (@ix RNum (s_rho (s x)) a).
  Lemma drho_val : drho x0 = Delta X (t x0) rho0 a a * rho0 a.
  Proof. exact (assoc_deltarho p W Hph (t x0) (v x0) (moles x0) PS a Ha). Qed.
  Lemma a_lt : (a < n)%nat.
  Proof. exact (assoc_lt p W a Ha). Qed.
  Lemma drho_nonneg : 0 <= drho x0.
  Proof.
    rewrite drho_val. apply Rmult_le_pos.
    - exact (Delta_nonneg p Hph Hap (t x0) (v x0) (moles x0) PS a a a_lt a_lt).
    - exact (rho_nonneg p (t x0) (v x0) (moles x0) PS a a_lt).
  Qed.
  Lemma tr_drho : rl drho (nmul (association_strength q t2 (seg_radius q t2) (assoc_n2 q t2 (s_rho s2)) n3i2 n1 a a) (ix (s_rho s2) a)).
  Proof. exact (F_TransferS.tr_drho TR p W Hph s s2 Tt tr_rho Ht base_eta a Ha). Qed.

  Theorem tr_assoc : 0 < na -> (0 < nb -> na + nb <= 67108864) ->
    brok TR (fun _ => @sqrt_eps RNum) drho -> rl (fun x => a_assoc p (s x)) (a_assoc q s2).
  Proof. exact (F_TransferS.tr_assoc TR p W Hph s s2 Tt Tm tr_rho Ht base_eta a Ha drho_nonneg). Qed.
End Contributions.

(* ------------------------------------------------------------------------- residual *)

Definition lift_options {K : Num} (emb : R -> car K) (o : options RNum) : options K :=
  @mkOptions K (emb (o_max_eta o)) (o_max_iter o) (emb (o_tol o)) (o_dq o).

Section Residual.
  Context {Pt : Type} {K : Num} {x0 : Pt} (TR : Transfer K x0).
  Notation rl := (rel TR).
  Variable p : params RNum.
  Hypothesis W : wfp p.
  Hypothesis Hph : phys p.
  Variables (t v : Pt -> R) (t2 v2 : car K) (moles : Pt -> list R) (moles2 : list (car K)).
  Hypothesis Tt : rl t t2.
  Hypothesis Tv : rl v v2.
  Hypothesis Tm : lrel TR moles moles2.
  Hypothesis PS : phys_state p (t x0) (v x0) (moles x0).
  Notation q := (plift (emb TR) p).
  Notation st := (fun x => @state_new RNum (t x) (v x) (moles x)).
  Notation s2 := (@state_new K t2 v2 moles2).

  Lemma lrel_sing f a : rl f a -> lrel TR (fun x => [f x]) [a].
  Proof. intros H. apply (lrel_cons TR); auto. apply (lrel_nil TR). Qed.

  Theorem tr_residual lu lu2 o :
    (p_ndipole p <> 0%nat -> rl (fun x => a_dipole p (st x)) (a_dipole q s2)) ->
    (p_nquadpole p <> 0%nat -> rl (fun x => a_quadrupole p (st x)) (a_quadrupole q s2)) ->
    (p_ndipole p <> 0%nat -> p_nquadpole p <> 0%nat -> rl (fun x => a_dq p (o_dq o) (st x)) (a_dq q (o_dq o) s2)) ->
    (p_nassoc p = 1%nat -> rl (fun x => a_assoc p (st x)) (a_assoc q s2)) ->
    (p_nassoc p <= 1)%nat ->
    exists (f : Pt -> R) (a : car K), (forall x, residual lu (with_options p o) (st x) = Some (f x)) /\
      residual lu2 (with_options q (lift_options (emb TR) o)) s2 = Some a /\ rl f a.
  Proof.
    intros Hd Hq Hdq Ha Hn.
    set (fl := fun x => [a_hs p (st x); a_hc p (st x); a_disp p (st x)]
       ++ (if Nat.ltb 0 (p_ndipole p) then [a_dipole p (st x)] else [])
       ++ (if Nat.ltb 0 (p_nquadpole p) then [a_quadrupole p (st x)] else [])
       ++ (if Nat.ltb 0 (p_ndipole p) && Nat.ltb 0 (p_nquadpole p) then [a_dq p (o_dq o) (st x)] else [])
       ++ (if Nat.eqb (p_nassoc p) 0 then [] else [a_assoc p (st x)])).
    set (l := [a_hs q s2; a_hc q s2; a_disp q s2]
       ++ (if Nat.ltb 0 (p_ndipole p) then [a_dipole q s2] else [])
       ++ (if Nat.ltb 0 (p_nquadpole p) then [a_quadrupole q s2] else [])
       ++ (if Nat.ltb 0 (p_ndipole p) && Nat.ltb 0 (p_nquadpole p) then [a_dq q (o_dq o) s2] else [])
       ++ (if Nat.eqb (p_nassoc p) 0 then [] else [a_assoc q s2])).
    exists (fun x => @nsum RNum (fl x)), (nsum l). split; [ | split].
    - intros x. unfold residual, with_options, fl. cbn [e_contributions e_params].
      destruct (Nat.ltb 0 (p_ndipole p)), (Nat.ltb 0 (p_nquadpole p)), (p_nassoc p) as [ | [ | k]]; try lia; reflexivity.
    - unfold residual, with_options, l. cbn [e_contributions e_params p_ndipole p_nquadpole p_nassoc plift].
      destruct (Nat.ltb 0 (p_ndipole p)), (Nat.ltb 0 (p_nquadpole p)), (p_nassoc p) as [ | [ | k]]; try lia; reflexivity.
    - apply (tr_nsum TR). unfold fl, l. repeat apply (lrel_app TR).
      + apply (lrel_cons TR). { exact (tr_hs TR p W Hph t v t2 v2 moles moles2 Tt Tv Tm PS). }
        apply (lrel_cons TR). { exact (tr_hc TR p W Hph t v t2 v2 moles moles2 Tt Tv Tm PS). }
        apply lrel_sing. exact (tr_disp TR p W Hph t v t2 v2 moles moles2 Tt Tv Tm PS).
      + destruct (Nat.ltb_spec 0 (p_ndipole p)); [apply lrel_sing; apply Hd; lia | apply (lrel_nil TR)].
      + destruct (Nat.ltb_spec 0 (p_nquadpole p)); [apply lrel_sing; apply Hq; lia | apply (lrel_nil TR)].
      + destruct (Nat.ltb_spec 0 (p_ndipole p)), (Nat.ltb_spec 0 (p_nquadpole p)); cbn [andb];
          [apply lrel_sing; apply Hdq; lia | apply (lrel_nil TR) .. ].
      + destruct (Nat.eqb_spec (p_nassoc p) 0); [apply (lrel_nil TR) | apply lrel_sing; apply Ha; lia].
  Qed.
End Residual.
