(** C08, continued: the conditions of P_Dual.v in liquids, and the theorems in the form of
    ordinary first and second derivatives (pressure, chemical potential, ...). *)
From Coq Require Import ZArith QArith Reals Lra Lia String List Bool.
From Coquelicot Require Import Coquelicot.
From Verif Require Import Num RNum RSum Tables M_Params F_Params M_Eos Spec F_Spec F_SpecPolar F_SpecAssoc
  F_Contrib F_Cross F_Total Samples P_Params F_Limit P_Limit F_Transfer XNum F_Transfer2 F_Transfer3 P_Finite P_Finite2 DNum F_Level P_Dual.
From Interval Require Import Tactic.
Import ListNotations.
Local Open Scope R_scope.
Set Bullet Behavior "Strict Subproofs".

Lemma pair_ge n (w J : nat -> nat -> R) i0 j0 :
  (forall i j, (i < n)%nat -> (j < n)%nat -> 0 <= w i j /\ (w i j <> 0 -> 0 < J i j)) ->
  (i0 < n)%nat -> (j0 < n)%nat -> 0 < w i0 j0 ->
  0 < Sum i < n, Sum j < n, w i j * J i j.
Proof.
  intros H Hi Hj Hw.
  assert (T : forall i j, (i < n)%nat -> (j < n)%nat -> 0 <= w i j * J i j).
  { intros i j A B. destruct (H i j A B) as [C D]. destruct (Req_dec (w i j) 0) as [-> | E]; [lra | ].
    apply Rmult_le_pos; auto. left. auto. }
  apply (rsum_pos _ _ i0).
  - intros i Ii. apply rsum_nonneg. intros j Ij. apply seq_in in Ii, Ij. auto.
  - apply in_seq; lia.
  - apply (rsum_pos _ _ j0); [ | apply in_seq; lia | ].
    + intros j Ij. apply seq_in in Ij. auto.
    + apply Rmult_lt_0_compat; auto. apply H; auto. lra.
Qed.

Section Nz.
  Variables (prs : list (pure_record RNum)) (bin : list (list R)) (p : params RNum).
  Hypothesis Hp : from_records prs bin = Some p.
  Hypothesis Hph : phys p.
  Variables (t v : R) (moles : list R).
  Hypothesis PS : phys_state p t v moles.
  Let X := mix_of p.
  Let n := List.length (p_m p).
  Let rho := fun i => nth i moles 0 / v.
  Let eta := Eta X t rho.
  Let Ht : 0 < t := ps_t _ _ _ _ PS.
  Let Sp i j : (i < n)%nat -> (j < n)%nat -> 0 < Sij X i j := Sij_p p Hph i j.
  Let Mn i : (i < n)%nat -> 0 <= Mu2 X i := mu2_nn prs bin p Hp Hph i.
  Let Qn i : (i < n)%nat -> 0 <= Qu2 X i := qu2_nn prs bin p Hp Hph i.
  Let Rn i : (i < n)%nat -> 0 <= rho i := rho_nonneg p t v moles PS i.
  Lemma Wi_pos k i : (i < n)%nat -> 0 < Wi X t k i.
  Proof.
    intros Hi. destruct (Hph i Hi) as (A & B & C). unfold Wi. apply Rmult_lt_0_compat.
    - apply Rdiv_lt_0_compat; auto.
    - apply pow_lt; auto.
  Qed.
  Lemma w2_pos i j ki kj (d : R) : (i < n)%nat -> (j < n)%nat -> 0 < rho i -> 0 < rho j -> 0 < d ->
    0 < rho i * rho j * Wi X t ki i * Wi X t kj j / d.
  Proof.
    intros Hi Hj Ri Rj Hd. apply Rdiv_lt_0_compat; auto.
    apply Rmult_lt_0_compat; [ | apply Wi_pos; auto]. apply Rmult_lt_0_compat; [ | apply Wi_pos; auto].
    apply Rmult_lt_0_compat; auto.
  Qed.

  Let W2 i j ki kj (d : R) : (i < n)%nat -> (j < n)%nat -> 0 < d -> 0 <= rho i * rho j * Wi X t ki i * Wi X t kj j / d :=
    w2_nn p Hph t v moles PS i j ki kj d.
  Let E0 : 0 <= eta := eta_nn p Hph t v moles PS.
  Let neq_sep (a b : R) : a <> b \/ a = 0 -> a < 0 -> a <> b.
  Proof. intros [H | H] L; auto. lra. Qed.

  (** a dipolar component is present, the temperature is not below its epsilon/k and it has at
      least one segment: no pole of the dipole term up to a packing fraction of 0.74 *)
  Lemma dd_neq : (forall i, (i < n)%nat -> Mu2 X i <> 0 -> warm_at p t i) -> eta <= 74 / 100 ->
    (exists i, (i < n)%nat /\ Mu2 X i <> 0 /\ 0 < rho i) -> dd2 X t rho <> dd3 X t rho.
  Proof.
    intros warm dense (i0 & H0 & M0 & R0). apply neq_sep; [exact (dd_sep prs bin p Hp Hph t v moles PS warm dense) | ].
    unfold dd2. match goal with |- - PI * ?x < 0 => assert (0 < x) end; [ | pose proof PI_RGT_0; nra].
    change (N (mix_of p)) with n.
    apply (pair_ge n (fun i j => rho i * rho j * Wi X t 3 i * Wi X t 3 j / Sij X i j ^ 3 * Mu2 X i * Mu2 X j) (fun i j => J2 X t rho AD BD i j) i0 i0); auto.
    - intros i j Hi Hj. split.
      + apply Rmult_le_pos; auto. apply Rmult_le_pos; auto. apply W2; auto. apply pow_lt; auto.
      + intros Nz.
        destruct (Req_dec (Mu2 X i) 0) as [E | Ni]; [exfalso; apply Nz; rewrite E; ring | ].
        destruct (Req_dec (Mu2 X j) 0) as [E | Nj]; [exfalso; apply Nz; rewrite E; ring | ].
        destruct (range2 p Hph t v moles PS i j Hi Hj (warm i Hi Ni) (warm j Hj Nj)).
        unfold J2. apply J2_dd_pos; auto.
    - pose proof (Mn i0 H0). assert (0 < Mu2 X i0) by lra.
      apply Rmult_lt_0_compat; auto. apply Rmult_lt_0_compat; auto. apply w2_pos; auto. apply pow_lt; auto.
  Qed.
  Lemma qq_neq : (forall i, (i < n)%nat -> Qu2 X i <> 0 -> warm_at p t i) -> 22 / 100 <= eta <= 74 / 100 ->
    (exists i, (i < n)%nat /\ Qu2 X i <> 0 /\ 0 < rho i) -> qq2_code X t rho <> qq3 X t rho.
  Proof.
    intros warm dense (i0 & H0 & M0 & R0). apply neq_sep; [exact (qq_sep prs bin p Hp Hph t v moles PS warm dense) | ].
    unfold qq2_code. match goal with |- - PI * ?y * ?x < 0 => assert (0 < x) end; [ | pose proof PI_RGT_0; nra].
    change (N (mix_of p)) with n.
    apply (pair_ge n (fun i j => rho i * rho j * Wi X t 5 i * Wi X t 5 j / Sg X (Nat.min i j) ^ 7 * Qu2 X i * Qu2 X j) (fun i j => J2 X t rho AQ BQ i j) i0 i0); auto.
    - intros i j Hi Hj. split.
      + apply Rmult_le_pos; auto. apply Rmult_le_pos; auto. apply W2; auto. apply pow_lt. apply (Sg_pos p Hph). unfold n in *; lia.
      + intros Nz.
        destruct (Req_dec (Qu2 X i) 0) as [E | Ni]; [exfalso; apply Nz; rewrite E; ring | ].
        destruct (Req_dec (Qu2 X j) 0) as [E | Nj]; [exfalso; apply Nz; rewrite E; ring | ].
        destruct (range2 p Hph t v moles PS i j Hi Hj (warm i Hi Ni) (warm j Hj Nj)).
        unfold J2. apply J2_qq_pos; auto. fold eta. lra.
    - pose proof (Qn i0 H0). assert (0 < Qu2 X i0) by lra.
      apply Rmult_lt_0_compat; auto. apply Rmult_lt_0_compat; auto. apply w2_pos; auto.
      apply pow_lt. apply (Sg_pos p Hph). unfold n in *; lia.
  Qed.
  Lemma dq_neq var : (forall i, (i < n)%nat -> Mu2 X i <> 0 \/ Qu2 X i <> 0 -> warm_at p t i) -> 44 / 100 <= eta <= 74 / 100 ->
    (exists i, (i < n)%nat /\ Mu2 X i <> 0 /\ 0 < rho i) -> (exists i, (i < n)%nat /\ Qu2 X i <> 0 /\ 0 < rho i) ->
    dq2_code p t v moles var <> dq3 X t rho.
  Proof.
    intros warm dense (i0 & H0 & M0 & R0) (i1 & H1 & M1 & R1).
    apply neq_sep; [exact (dq_sep prs bin p Hp Hph t v moles PS warm dense var) | ].
    unfold dq2_code, dq2. match goal with |- - _ * PI * ?x < 0 => assert (0 < x) end; [ | pose proof PI_RGT_0; nra].
    change (N (mix_of p)) with n.
    apply (pair_ge n (fun i j => rho i * rho j * Wi X t (fst (dq_exps var)) i * Wi X t (snd (dq_exps var)) j / Sij X i j ^ 5 * Mu2 X i * Qu2 X j) (fun i j => J2 X t rho ADQ BDQ i j) i0 i1); auto.
    - intros i j Hi Hj. split.
      + apply Rmult_le_pos; auto. apply Rmult_le_pos; auto. apply W2; auto. apply pow_lt; auto.
      + intros Nz.
        destruct (Req_dec (Mu2 X i) 0) as [E | Ni]; [exfalso; apply Nz; rewrite E; ring | ].
        destruct (Req_dec (Qu2 X j) 0) as [E | Nj]; [exfalso; apply Nz; rewrite E; ring | ].
        destruct (range2 p Hph t v moles PS i j Hi Hj (warm i Hi (or_introl Ni)) (warm j Hj (or_intror Nj))).
        unfold J2. apply J2_dq_pos; auto. fold eta. lra.
    - pose proof (Mn i0 H0). pose proof (Qn i1 H1). assert (0 < Mu2 X i0) by lra. assert (0 < Qu2 X i1) by lra.
      apply Rmult_lt_0_compat; auto. apply Rmult_lt_0_compat; auto. apply w2_pos; auto. apply pow_lt; auto.
  Qed.
End Nz.

(* ------------------------------------------------ first and second derivatives, spelled out *)

(** Dual64: value and derivative *)
Lemma first_order f a : represents 1 f a ->
  exists r, a = (Fin (f (0, tt)), Fin r) /\ is_derive (fun x => f (x, tt)) 0 r.
Proof.
  intros H. destruct (H [false] eq_refl) as (r0 & E0 & P0). destruct (H [true] eq_refl) as (r1 & E1 & g & P1 & P2).
  exists r1. destruct a as [a0 a1]. cbn in *. subst. split; auto.
Qed.
(** HyperDual64: value, both first derivatives and the mixed second derivative *)
Lemma second_order f a : represents 2 f a ->
  exists r1 r2 r12 g, a = ((Fin (f (0, (0, tt))), Fin r2), (Fin r1, Fin r12)) /\
    is_derive (fun x => f (x, (0, tt))) 0 r1 /\ is_derive (fun y => f (0, (y, tt))) 0 r2 /\
    locally 0 (fun y => is_derive (fun x => f (x, (y, tt))) 0 (g y)) /\ is_derive g 0 r12.
Proof.
  intros H. destruct (H [false; false] eq_refl) as (r0 & E0 & P0). destruct (H [true; false] eq_refl) as (r1 & E1 & g1 & P1 & Q1).
  destruct (H [false; true] eq_refl) as (r2 & E2 & g2 & P2 & Q2). destruct (H [true; true] eq_refl) as (r12 & E12 & g & P12 & h & P3 & Q3).
  destruct a as [[a0 a2] [a1 a12]]. cbn in *. subst.
  exists (g1 (0, tt)), (g2 tt), (h tt), (fun y => g (y, tt)). split; [reflexivity | ].
  split; [ | split; [exact P2 | split; [exact P12 | exact P3]]].
  exact (locally_singleton _ _ P1).
Qed.

(* ----------------------------------------------------------- derivatives of any order *)

Fixpoint total (n : nat) : pt n -> R :=
  match n with
  | O => fun _ => 0
  | S k => fun z => total k (snd z) + fst z
  end.
Lemma total_0 n : total n (lz (dual n)) = 0.
Proof. induction n as [ | n IH]; cbn; auto. rewrite IH. ring. Qed.
Lemma aff_repeat n c d z : aff n c (repeat d n) z = c + d * total n z.
Proof. induction n as [ | n IH]; cbn [aff total repeat hd tl]; [ring | ]. rewrite IH. ring. Qed.
Lemma aff_nil n c z : aff n c [] z = c.
Proof. induction n as [ | n IH]; cbn [aff hd tl]; auto. rewrite IH. ring. Qed.

Lemma partial_near n s f g r : near (dual n) (fun z => f z = g z) -> partial n s f r -> partial n s g r.
Proof.
  revert s f g. induction n as [ | n IH]; intros s f g E H; cbn [partial] in *.
  - cbn in E. congruence.
  - destruct (hd false s).
    + destruct H as (d & A & B). exists d. split; auto.
      eapply (near_imp (dual n)); [ | exact (near_and (dual n) _ _ E A)]. intros y [C D].
      exact (is_derive_ext_loc (fun x => f (x, y)) (fun x => g (x, y)) 0 _ C D).
    + eapply IH; [ | exact H]. exact (near_slice (dual n) _ E).
Qed.
Fixpoint order (s : list bool) : nat := match s with [] => O | true :: s => S (order s) | false :: s => order s end.
Lemma is_derive_n_shift A k c r : is_derive_n (Derive A) k c r -> (0 < k)%nat -> is_derive_n A (S k) c r.
Proof.
  destruct k as [ | k]; [lia | ]. intros H _. cbn in *. eapply is_derive_ext; [ | exact H].
  intros x. pose proof (Derive_n_comp A k 1 x) as E. rewrite Nat.add_1_r in E. exact E.
Qed.
Lemma partial_total n s (A : R -> R) r : partial n s (fun z => A (total n z)) r -> List.length s = n -> is_derive_n A (order s) 0 r.
Proof.
  revert s A. induction n as [ | n IH]; intros s A H L.
  - destruct s; [ | discriminate]. exact H.
  - destruct s as [ | b s]; [discriminate | ]. cbn [List.length] in L. cbn [partial hd tl] in H. destruct b; cbn [order].
    + destruct H as (g & D & Pg).
      assert (D' : near (dual n) (fun y => is_derive A (total n y) (g y))).
      { eapply (near_imp (dual n)); [ | exact D]. intros y Dy. cbv beta in Dy. cbn [total fst snd] in Dy.
        apply (is_derive_ext (fun x => A (total n y + (x - total n y)))).
        { intros x. f_equal. ring. }
        replace (g y) with (scal 1 (g y)) by (unfold scal; cbn; unfold mult; cbn; ring).
        apply (is_derive_comp (fun x => A (total n y + x)) (fun x => x - total n y)).
        - replace (total n y - total n y) with 0 by ring. exact Dy.
        - auto_derive; auto. }
      destruct n as [ | n].
      * destruct s; [ | discriminate]. cbn in *. subst r. exact D'.
      * assert (Pd : partial (S n) s (fun z => Derive A (total (S n) z)) r).
        { eapply partial_near; [ | exact Pg]. eapply (near_imp (dual (S n))); [ | exact D'].
          intros z Hz. symmetry. apply is_derive_unique. exact Hz. }
        apply IH in Pd; auto. destruct (order s) eqn:Os; [ | apply is_derive_n_shift; auto; lia].
        cbn in Pd. cbn. subst r. apply Derive_correct.
        apply (near_z (dual (S n))) in D'. rewrite total_0 in D'. exists (g (lz (dual (S n)))). exact D'.
    + cbn [total fst snd] in H. apply IH; auto. eapply partial_near; [ | exact H].
      eapply (near_imp (dual n)); [ | apply near_true]. intros z _. cbv beta. rewrite Rplus_0_r. reflexivity.
Qed.

Lemma residual_some (p : params RNum) lu o s : (p_nassoc p <= 1)%nat -> exists r, residual lu (with_options p o) s = Some r.
Proof.
  intros H. unfold residual, with_options. cbn [e_contributions e_params].
  destruct (Nat.ltb 0 (p_ndipole p)), (Nat.ltb 0 (p_nquadpole p)), (p_nassoc p) as [ | [ | k]]; try lia; eexists; reflexivity.
Qed.

Section Any.
  Variables (prs : list (pure_record RNum)) (bin : list (list R)) (p : params RNum).
  Hypothesis Hp : from_records prs bin = Some p.
  Hypothesis Hph : phys p.
  Variables (t v : R) (moles : list R).
  Hypothesis PS : phys_state p t v moles.
  Let X := mix_of p.
  Let rho := fun i => nth i moles 0 / v.

  (** The state is a regular point of the equation of state: no pole of a polar term and not at
      the switch of the association term; at most one associating component. *)
  Definition regular_point (o : options RNum) : Prop :=
    (p_ndipole p <> 0%nat -> dd2 X t rho <> dd3 X t rho) /\
    (p_nquadpole p <> 0%nat -> qq2_code X t rho <> qq3 X t rho) /\
    (p_ndipole p <> 0%nat -> p_nquadpole p <> 0%nat ->
       dq2 X t rho (fst (dq_exps (o_dq o))) (snd (dq_exps (o_dq o))) <> dq3 X t rho) /\
    (p_nassoc p <= 1)%nat /\
    (forall a, p_assoc_comp p = [a] -> assoc_phys p /\ 0 < Na X a /\ (0 < Nb X a -> Na X a + Nb X a <= 2 ^ 26) /\
       Delta X t rho a a * rho a <> / 2 ^ 26).

  (** Directional derivatives of any order: temperature, volume and mole numbers t + dt x,
      v + dv x, m_i + d_i x are seeded as t + dt (e_1 + ... + e_n), ...: the coefficient of every
      product of k of the e's is the k-th derivative at x = 0. *)
  Theorem C08_directional n lu lu2 o (dt dv : R) (dm : list R) : List.length dm = List.length moles -> regular_point o ->
    exists A a,
      (forall x, residual lu (with_options p o)
         (@state_new RNum (t + dt * x) (v + dv * x) (map (fun md => fst md + snd md * x) (combine moles dm))) = Some (A x)) /\
      residual lu2 (with_options (plift (emb (TRn n)) p) (lift_options (emb (TRn n)) o))
         (@state_new (lK (dual n)) (seed n t (repeat dt n)) (seed n v (repeat dv n))
            (map (fun md => seed n (fst md) (repeat (snd md) n)) (combine moles dm))) = Some a /\
      forall s, List.length s = n -> exists r, coef n s a = Fin r /\ is_derive_n A (order s) 0 r.
  Proof.
    intros L (H1 & H2 & H3 & H4 & H5).
    set (seeds := map (fun md => (fst md, repeat (snd md) n)) (combine moles dm)).
    assert (Em : map fst seeds = moles).
    { unfold seeds. rewrite map_map. cbn [fst]. clear - L. revert dm L. induction moles as [ | m l IH]; intros [ | d dm] L; try discriminate; auto.
      cbn in *. f_equal. apply IH. lia. }
    assert (PS2 : phys_state p t v (map fst seeds)) by (rewrite Em; exact PS).
    destruct (C08_residual prs bin p Hp Hph n t v (repeat dt n) (repeat dv n) seeds PS2 lu lu2 o) as (f & a & E1 & E2 & E3).
    - rewrite Em. intros D. left. apply H1; auto.
    - rewrite Em. intros D. left. apply H2; auto.
    - rewrite Em. intros D1 D2. left. apply H3; auto.
    - exact H4.
    - rewrite Em. exact H5.
    - set (S := fun x => @state_new RNum (t + dt * x) (v + dv * x) (map (fun md => fst md + snd md * x) (combine moles dm))).
      assert (Ep : forall z, path n t v (repeat dt n) (repeat dv n) seeds z = S (total n z)).
      { intros z. unfold path, S. rewrite !aff_repeat. f_equal. unfold seeds. rewrite map_map. apply map_ext. intros md. cbn [fst snd]. apply aff_repeat. }
      exists (fun x => match residual lu (with_options p o) (S x) with Some r => r | None => 0 end), a.
      assert (EA : forall z, residual lu (with_options p o) (S (total n z)) = Some (f z)) by (intros z; rewrite <- Ep; apply E1).
      assert (Ez : forall x, exists y, residual lu (with_options p o) (S x) = Some y).
      { intros x. apply residual_some; auto. }
      split; [ | split].
      + intros x. fold (S x). destruct (Ez x) as (y & ->). reflexivity.
      + etransitivity; [ | exact E2]. f_equal. unfold dstate. f_equal. unfold seeds. rewrite map_map. reflexivity.
      + intros s Ls. destruct (E3 s Ls) as (r & C1 & C2). exists r. split; auto.
        apply (partial_total n s); auto. eapply partial_near; [ | exact C2].
        eapply (near_imp (dual n)); [ | apply near_true]. intros z _. cbv beta. rewrite EA. reflexivity.
  Qed.
End Any.

(* --------------------------------------------------------------------- the usual properties *)

Section Usual.
  Variables (prs : list (pure_record RNum)) (bin : list (list R)) (p : params RNum).
  Hypothesis Hp : from_records prs bin = Some p.
  Hypothesis Hph : phys p.
  Variables (t v : R) (moles : list R).
  Hypothesis PS : phys_state p t v moles.
  Let X := mix_of p.
  Notation cst := (fun r : R => (Fin r, Fin 0)).      (* Dual64 constant *)
  Notation var := (fun r : R => (Fin r, Fin 1)).      (* Dual64 variable *)
  Notation D1 := (lK (dual 1)).
  Notation eosD o := (with_options (plift (emb (TRn 1)) p) (lift_options (emb (TRn 1)) o)).

  Let dir1 n (A : R -> R) (a : dnum 1) :
    (forall s, List.length s = 1%nat -> exists r, coef 1 s a = Fin r /\ is_derive_n A (order s) 0 r) ->
    n = 1%nat -> exists r, a = (Fin (A 0), Fin r) /\ is_derive A 0 r.
  Proof.
    intros H _. destruct (H [false] eq_refl) as (r0 & E0 & P0). destruct (H [true] eq_refl) as (r1 & E1 & P1).
    exists r1. destruct a as [a0 a1]. cbn in *. subst. auto.
  Qed.
  Let const_moles x : map (fun md : R * R => fst md + snd md * x) (combine moles (map (fun _ => 0) moles)) = moles.
  Proof. clear. induction moles as [ | m l IH]; cbn; auto. rewrite IH. f_equal. ring. Qed.
  Let const_seeds : map (fun md : R * R => seed 1 (fst md) (repeat (snd md) 1)) (combine moles (map (fun _ => 0) moles)) = map cst moles.
  Proof. clear. induction moles as [ | m l IH]; cbn; auto. f_equal. exact IH. Qed.
  Let shift (A : R -> R) c r : is_derive (fun x => A (c + x)) 0 r -> is_derive A c r.
  Proof.
    intros H. apply (is_derive_ext (fun x => A (c + (x - c)))).
    { intros x. f_equal. ring. }
    replace r with (scal 1 r) by (unfold scal; cbn; unfold mult; cbn; ring).
    apply (is_derive_comp (fun x => A (c + x)) (fun x => x - c)).
    - replace (c - c) with 0 by ring. exact H.
    - auto_derive; auto.
  Qed.

  (** residual pressure: the eps part with a seeded volume is dA/dV at constant T and n *)
  Theorem C08_pressure lu lu2 o : regular_point p t v moles o ->
    exists A r, (forall V : R, residual lu (with_options p o) (@state_new RNum t V moles) = Some (A V)) /\
      residual lu2 (eosD o) (@state_new D1 (cst t) (var v) (map cst moles)) = Some (Fin (A v), Fin r) /\
      is_derive A v r.
  Proof.
    intros Rg. destruct (C08_directional prs bin p Hp Hph t v moles PS 1 lu lu2 o 0 1 (map (fun _ => 0) moles)) as (A & a & E1 & E2 & E3); auto.
    { apply map_length. }
    apply (dir1 1%nat) in E3; auto. destruct E3 as (r & -> & Dr).
    exists (fun V => A (V - v)), r. split; [ | split].
    - intros V. rewrite <- E1. rewrite const_moles. replace (t + 0 * (V - v)) with t by ring. replace (v + 1 * (V - v)) with V by ring. reflexivity.
    - rewrite const_seeds in E2. replace (v - v) with 0 by ring. exact E2.
    - apply shift. eapply is_derive_ext; [ | exact Dr]. intros x. cbv beta. f_equal. change (AbsRing.sort R_AbsRing) with R in *. ring.
  Qed.
  (** residual entropy: minus the eps part with a seeded temperature *)
  Theorem C08_entropy lu lu2 o : regular_point p t v moles o ->
    exists A r, (forall T : R, residual lu (with_options p o) (@state_new RNum T v moles) = Some (A T)) /\
      residual lu2 (eosD o) (@state_new D1 (var t) (cst v) (map cst moles)) = Some (Fin (A t), Fin r) /\
      is_derive A t r.
  Proof.
    intros Rg. destruct (C08_directional prs bin p Hp Hph t v moles PS 1 lu lu2 o 1 0 (map (fun _ => 0) moles)) as (A & a & E1 & E2 & E3); auto.
    { apply map_length. }
    apply (dir1 1%nat) in E3; auto. destruct E3 as (r & -> & Dr).
    exists (fun T => A (T - t)), r. split; [ | split].
    - intros T. rewrite <- E1. rewrite const_moles. replace (t + 1 * (T - t)) with T by ring. replace (v + 0 * (T - t)) with v by ring. reflexivity.
    - rewrite const_seeds in E2. replace (t - t) with 0 by ring. exact E2.
    - apply shift. eapply is_derive_ext; [ | exact Dr]. intros x. cbv beta. f_equal. change (AbsRing.sort R_AbsRing) with R in *. ring.
  Qed.
  (** residual chemical potential: component i is seeded *)
  Definition set_at {Y} (i : nat) (y : Y) (l : list Y) : list Y := firstn i l ++ y :: skipn (S i) l.
  Let dirs i := set_at i 1 (map (fun _ => 0) moles).
  Let len_dirs i : (i < List.length moles)%nat -> List.length (dirs i) = List.length moles.
  Proof.
    intros H. unfold dirs, set_at. rewrite app_length. cbn [List.length]. rewrite firstn_length, skipn_length, map_length. lia.
  Qed.
  Let dirs_moles i x : (i < List.length moles)%nat ->
    map (fun md : R * R => fst md + snd md * x) (combine moles (dirs i)) = set_at i (nth i moles 0 + x) moles.
  Proof.
    unfold dirs, set_at. clear. revert i. induction moles as [ | m l IH]; intros i H; [cbn in H; lia | ]. destruct i as [ | i].
    - cbn. f_equal; [ring | ]. clear. induction l as [ | a l IH]; cbn; auto. rewrite IH. f_equal. ring.
    - cbn [List.length] in H. cbn. f_equal; [ring | ]. apply IH. lia.
  Qed.
  Let dirs_seeds i : (i < List.length moles)%nat ->
    map (fun md : R * R => seed 1 (fst md) (repeat (snd md) 1)) (combine moles (dirs i)) = set_at i (var (nth i moles 0)) (map cst moles).
  Proof.
    unfold dirs, set_at. clear. revert i. induction moles as [ | m l IH]; intros i H; [cbn in H; lia | ]. destruct i as [ | i].
    - cbn. f_equal. clear. induction l as [ | a l IH]; cbn; auto. f_equal. exact IH.
    - cbn [List.length] in H. cbn. f_equal. apply IH. lia.
  Qed.
  Theorem C08_chemical_potential lu lu2 o i : regular_point p t v moles o -> (i < List.length moles)%nat ->
    exists A r, (forall n_i : R, residual lu (with_options p o) (@state_new RNum t v (set_at i n_i moles)) = Some (A n_i)) /\
      residual lu2 (eosD o) (@state_new D1 (cst t) (cst v) (set_at i (var (nth i moles 0)) (map cst moles)))
        = Some (Fin (A (nth i moles 0)), Fin r) /\
      is_derive A (nth i moles 0) r.
  Proof.
    intros Rg Hi. destruct (C08_directional prs bin p Hp Hph t v moles PS 1 lu lu2 o 0 0 (dirs i)) as (A & a & E1 & E2 & E3); auto.
    apply (dir1 1%nat) in E3; auto. destruct E3 as (r & -> & Dr).
    exists (fun T => A (T - nth i moles 0)), r. split; [ | split].
    - intros T. rewrite <- E1. rewrite dirs_moles by auto.
      replace (t + 0 * (T - nth i moles 0)) with t by ring. replace (v + 0 * (T - nth i moles 0)) with v by ring.
      replace (nth i moles 0 + (T - nth i moles 0)) with T by ring. reflexivity.
    - rewrite dirs_seeds in E2 by auto. replace (nth i moles 0 - nth i moles 0) with 0 by ring. exact E2.
    - apply shift. eapply is_derive_ext; [ | exact Dr]. intros x. cbv beta. f_equal. change (AbsRing.sort R_AbsRing) with R in *. ring.
  Qed.
End Usual.

(* --------------------------------------------------------------------------------- cases *)

(** dimethyl ether + carbon dioxide + water, a liquid at 350 K *)
Lemma moment_nz (mu den : R) : mu <> 0 -> 0 < den -> mu * mu / den * (@e_m19 RNum) * (@kb_conv RNum) <> 0.
Proof.
  intros Hm Hd. unfold e_m19, kb_conv. rn. lits. assert (0 < mu * mu / den) by (apply Rdiv_lt_0_compat; nra).
  generalize dependent (mu * mu / den). intros x Hx. match goal with |- ?y <> 0 => assert (0 < y); [ | lra] end.
  apply Rmult_lt_0_compat; [ | lra]. apply Rmult_lt_0_compat; lra.
Qed.
Lemma sample_mu : Mu2 (mix_of sample) 0 <> 0.
Proof. change (@mu2_of RNum 1.3 2.2634 3.2723 210.29 <> 0). unfold mu2_of. rn. apply moment_nz; lra. Qed.
Lemma sample_qu : Qu2 (mix_of sample) 1 <> 0.
Proof. change (@q2_of RNum 4.4 1.5131 3.1869 163.333 <> 0). unfold q2_of. rn. apply moment_nz; lra. Qed.
Lemma sample_delta : / 2 ^ 26 < Delta (mix_of sample) 350 (fun i => nth i [1; 2; 3] 0 / 260) 2 2 * (nth 2 [1; 2; 3] 0 / 260).
Proof.
  unfold Delta, Gij, Kapij, Zeta, Sij, Di. change (N (mix_of sample)) with 3%nat. unfold rsum. cbn [seq fold_right map].
  change (M (mix_of sample) 0) with (2.2634). change (M (mix_of sample) 1) with (1.5131). change (M (mix_of sample) 2) with (1.065587).
  change (Sg (mix_of sample) 0) with (3.2723). change (Sg (mix_of sample) 1) with (3.1869). change (Sg (mix_of sample) 2) with (3.000683).
  change (Ep (mix_of sample) 0) with (210.29). change (Ep (mix_of sample) 1) with (163.333). change (Ep (mix_of sample) 2) with (366.5121).
  change (Kab (mix_of sample) 2) with (0.034867983). change (Eab (mix_of sample) 2) with (2500.6706).
  cbn [nth]. interval.
Qed.
Lemma sample_warm i : (i < 3)%nat -> Mu2 (mix_of sample) i <> 0 \/ Qu2 (mix_of sample) i <> 0 -> warm_at sample 350 i.
Proof.
  intros Hi Hpol. destruct i as [ | [ | [ | i]]]; try lia.
  - split; cbn; lra.
  - split; cbn; lra.
  - exfalso. destruct Hpol as [H | H]; apply H.
    + change (@mu2_of RNum 0 1.065587 3.000683 366.5121 = 0). unfold mu2_of. rn. unfold Rdiv. ring.
    + change (@q2_of RNum 0 1.065587 3.000683 366.5121 = 0). unfold q2_of. rn. unfold Rdiv. ring.
Qed.
Lemma sample_regular o : regular_point sample 350 260 [1; 2; 3] o.
Proof.
  pose proof sample_eta as He. pose proof sample_mu as Hm. pose proof sample_qu as Hq.
  assert (D : exists i, (i < 3)%nat /\ Mu2 (mix_of sample) i <> 0 /\ 0 < nth i [1; 2; 3] 0 / 260).
  { exists 0%nat. split; [lia | split; auto]. cbn [nth]. lra. }
  assert (Q : exists i, (i < 3)%nat /\ Qu2 (mix_of sample) i <> 0 /\ 0 < nth i [1; 2; 3] 0 / 260).
  { exists 1%nat. split; [lia | split; auto]. cbn [nth]. lra. }
  split; [ | split; [ | split; [ | split]]].
  - intros _. apply (dd_neq _ _ _ sample_ok sample_phys _ _ _ sample_liquid); auto; [ | lra].
    intros i Hi Hn. apply sample_warm; auto.
  - intros _. apply (qq_neq _ _ _ sample_ok sample_phys _ _ _ sample_liquid); auto; [ | lra].
    intros i Hi Hn. apply sample_warm; auto.
  - intros _ _. apply (dq_neq _ _ _ sample_ok sample_phys _ _ _ sample_liquid); auto.
    intros i Hi Hn. apply sample_warm; auto.
  - rewrite (w_na _ (wfp_from_records _ _ _ sample_ok)). destruct C17_case as (_ & _ & ->). cbn. lia.
  - intros a Ha. destruct C17_case as (_ & _ & E). rewrite E in Ha.
    assert (a = 2%nat) as -> by congruence. split; [ | split; [ | split]].
    + intros i Hi. cbn in Hi. destruct i as [ | [ | [ | i]]]; try lia; cbn; repeat split; lra.
    + cbn. lra.
    + cbn. lra.
    + pose proof sample_delta. lra.
Qed.
Example C08_case lu lu2 : exists A r,
  (forall V : R, residual lu (with_options sample default_options) (@state_new RNum 350 V [1; 2; 3]) = Some (A V)) /\
  residual lu2 (with_options (plift (emb (TRn 1)) sample) (lift_options (emb (TRn 1)) default_options))
    (@state_new (lK (dual 1)) (Fin 350, Fin 0) (Fin 260, Fin 1) [(Fin 1, Fin 0); (Fin 2, Fin 0); (Fin 3, Fin 0)]) = Some (Fin (A 260), Fin r) /\
  is_derive A 260 r.
Proof. exact (C08_pressure _ _ _ sample_ok sample_phys _ _ _ sample_liquid lu lu2 default_options (sample_regular _)). Qed.
(** third order, along a change of temperature, volume and composition together *)
Example C08_case_third lu lu2 : exists A a,
  (forall x, residual lu (with_options sample default_options)
     (@state_new RNum (350 + 1 * x) (260 + - (2) * x) (map (fun md => fst md + snd md * x) (combine [1; 2; 3] [1; 0; -1]))) = Some (A x)) /\
  residual lu2 (with_options (plift (emb (TRn 3)) sample) (lift_options (emb (TRn 3)) default_options))
     (@state_new (lK (dual 3)) (seed 3 350 (repeat 1 3)) (seed 3 260 (repeat (- (2)) 3))
        (map (fun md => seed 3 (fst md) (repeat (snd md) 3)) (combine [1; 2; 3] [1; 0; -1]))) = Some a /\
  exists r, coef 3 [true; true; true] a = Fin r /\ is_derive_n A 3 0 r.
Proof.
  destruct (C08_directional _ _ _ sample_ok sample_phys _ _ _ sample_liquid 3 lu lu2 default_options 1 (- (2)) [1; 0; -1] eq_refl (sample_regular _))
    as (A & a & E1 & E2 & E3).
  exists A, a. split; [exact E1 | split; [exact E2 | ]]. exact (E3 [true; true; true] eq_refl).
Qed.

Print Assumptions C08_hard_sphere.
Print Assumptions C08_hard_chain.
Print Assumptions C08_dispersion.
Print Assumptions C08_dipole.
Print Assumptions C08_quadrupole.
Print Assumptions C08_dipole_quadrupole.
Print Assumptions C08_association.
Print Assumptions C08_residual.
Print Assumptions C08_directional.
Print Assumptions C08_pressure.
Print Assumptions C08_entropy.
Print Assumptions C08_chemical_potential.
