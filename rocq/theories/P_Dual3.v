(** C15: the derivatives of the cross-association are those of the implicitly defined site fractions.

    The routine first solves the law of mass action with real numbers and then performs Newton
    steps with dual numbers starting from the real solution.  The theorems say that, starting from
    an exact solution, c dual steps give all partial derivatives of order below 2^c (in particular
    up to c) of the site fractions as functions of the strengths and densities, and that the
    routine, which performs as many steps as the number type has derivatives, returns the Helmholtz
    energy with all its derivatives. *)
From Coq Require Import ZArith QArith Reals Lra Lia String List Bool.
From Coquelicot Require Import Coquelicot.
From Verif Require Import Num RNum RSum Tables M_Params F_Params M_Eos Spec F_Spec F_SpecAssoc F_Contrib F_Newton F_Gauss
  F_MassAction F_MassAction2 F_NewtonR F_Cross F_Total Samples F_Transfer XNum F_Transfer2 F_Transfer3 DNum F_Level F_Linear
  F_Implicit P_Assoc P_Assoc2 P_Dual P_Dual2 F_DualNewton F_DualGauss.
Import ListNotations.
Local Open Scope R_scope.
Set Bullet Behavior "Strict Subproofs".
Notation length := List.length.

Lemma coef_sub n s (a b : dnum n) : coef n s (nsub a b) = xsub (coef n s a) (coef n s b).
Proof.
  revert s a b. induction n as [ | n IH]; intros s a b; auto. cbn [coef].
  destruct (hd false s); cbn [nsub dual next lK DualOf fst snd]; apply IH.
Qed.
Lemma order_le n s : length s = n -> (order s <= n)%nat.
Proof. revert n. induction s as [ | [ | ] s IH]; intros n Hs; cbn in *; [lia | | ]; destruct n; try lia; specialize (IH n ltac:(lia)); lia. Qed.
Lemma pow2_gt n : (n < 2 ^ n)%nat.
Proof. apply Nat.pow_gt_lin_r. lia. Qed.

(** real part of a dual number, as a dual number, represents the constant function *)
Lemma rel_nre n f a : rel (TRn n) f a -> rel (TRn n) (fun _ => f (lz (dual n))) (nre a).
Proof.
  revert f a. induction n as [ | n IH]; intros f a H; [exact H | ]. destruct H as (A & g & B & C). split.
  - exact (IH _ _ A).
  - exists (fun _ => 0). split; [exact (tr_n0 (TRn n)) | ]. apply near_all. intros y. apply (is_derive_const (f (lz (dual (S n)))) 0).
Qed.
Lemma nltb_coef n (a b : dnum n) : nltb a b = xltb (coef n [] a) (coef n [] b).
Proof. induction n as [ | n IH]; auto. cbn [coef hd tl]. exact (IH (fst a) (fst b)). Qed.
Lemma sqrt_coef n (a : dnum n) : coef n [] (nsqrt a) = xsqrt (coef n [] a).
Proof. induction n as [ | n IH]; auto. cbn [coef hd tl]. exact (IH (fst a)). Qed.
Lemma rel_coef n f a : rel (TRn n) f a -> coef n [] a = Fin (f (lz (dual n))).
Proof. revert f a. induction n as [ | n IH]; intros f a H; [exact H | ]. destruct H as [A _]. exact (IH _ _ A). Qed.
Lemma nderiv_dual n : nderiv (lK (dual n)) = n.
Proof. induction n as [ | n IH]; auto. cbn. auto. Qed.
Lemma Forall2_ix {A} {K : Num} (Q : (A -> R) -> car K -> Prop) (fs : list (A -> R)) l : length fs = length l ->
  (forall i, (i < length l)%nat -> Q (nth i fs (fun _ => 0)) (ix l i)) -> Forall2 Q fs l.
Proof.
  revert l. induction fs as [ | f fs IH]; destruct l as [ | a l]; intros E H; try discriminate; constructor.
  - exact (H O ltac:(cbn; lia)).
  - apply IH; [cbn in E; lia | ]. intros i Hi. exact (H (S i) ltac:(cbn; lia)).
Qed.

Lemma lrel_nre n fl l : lrel (TRn n) fl l -> lrel (TRn n) (fun _ => fl (lz (dual n))) (map nre l).
Proof.
  intros (fs & E & F). exists (map (fun f _ => f (lz (dual n))) fs). split.
  - intros z. rewrite map_map, E. reflexivity.
  - clear E. induction F; cbn; constructor; auto. apply rel_nre; auto.
Qed.

Section C15.
  Variables (n m : nat).
  Notation z0 := (lz (dual n)). Notation N := (m + m)%nat. Notation E := (emb (TRn n)).
  (** association strengths, numbers of sites and densities of [m] associating species; strengths
      and densities are functions on R^n *)
  Variables (delta : pt n -> list (list R)) (na nb : list R) (rho : pt n -> list R).
  Notation str z := (fun i j => @ix2 RNum (delta z) i j).
  Notation den z := (fun i => @ix RNum (rho z) i).
  Notation sna := (fun i => @ix RNum na i). Notation snb := (fun i => @ix RNum nb i).
  (** their dual numbers *)
  Variables (delta2 : list (list (dnum n))) (rho2 : list (dnum n)).
  Hypothesis Hdelta : forall i j, (i < m)%nat -> (j < m)%nat -> represents n (fun z => str z i j) (ix2 delta2 i j).
  Hypothesis Lrho : (forall z, length (rho z) = m) /\ length rho2 = m.
  Hypothesis Hrho : forall i, (i < m)%nat -> represents n (fun z => den z i) (ix rho2 i).
  Hypothesis pos_delta : forall i j, (i < m)%nat -> (j < m)%nat -> 0 <= str z0 i j.
  Hypothesis pos_sites : forall i, (i < m)%nat -> 0 <= sna i /\ 0 <= snb i /\ 0 <= den z0 i.
  (** exact solver and exact real solution *)
  Variables (lu : lu_solver (lK (dual n))) (tol : dnum n).
  Hypothesis Hlu : lu_dual n lu.
  Variable x : list R.
  Hypothesis Hx : site_law m (str z0) sna snb (den z0) x.

  Notation dual_newton := (newton_deriv (newton_step lu m delta2 (map E na) (map E nb) rho2 tol)).

  Lemma c15_Td i j : (i < m)%nat -> (j < m)%nat -> rel (TRn n) (fun z => str z i j) (ix2 delta2 i j).
  Proof. intros. apply represents_rel; auto. Qed.
  Lemma c15_Tc l : lrel (TRn n) (fun _ => l) (map E l).
  Proof.
    exists (map (fun r _ => r) l). split.
    - intros z. rewrite map_map, map_id. reflexivity.
    - induction l; cbn; constructor; auto. apply (tr_emb _ _ (TRn n)).
  Qed.
  Lemma c15_Tr : lrel (TRn n) rho rho2.
  Proof.
    destruct Lrho as [L1 L2]. exists (mk1 m (fun i z => @ix RNum (rho z) i)). split.
    - intros z. unfold mk1. rewrite map_map. apply (nth_ext _ _ 0 0); [rewrite map_length, seq_length; apply L1 | ].
      intros i Hi. rewrite L1 in Hi. change (nth i (rho z) 0 = nth i (mk1 m (fun i => @ix RNum (rho z) i)) 0). rewrite nth_mk1 by auto. reflexivity.
    - apply (Forall2_ix (K := lK (dual n))); [rewrite mk1_length; auto | ]. intros i Hi. rewrite L2 in Hi.
      pose proof (nth_mk1 m (fun i z => @ix RNum (rho z) i) i (fun _ => 0) Hi) as Ei. refine (eq_ind_r (fun g => rel (TRn n) g (ix rho2 i)) _ Ei). apply represents_rel; auto.
  Qed.
  Notation D := (Dz n m delta (fun _ => na) (fun _ => nb) rho).
  Lemma c15_HD k l : (k < N)%nat -> (l < N)%nat -> 0 <= D k l z0.
  Proof.
    apply Dm_nonneg; [exact pos_delta | ]. intros j Hj. destruct (pos_sites j Hj) as (A & B & C). auto.
  Qed.
  Lemma c15_exact : exact m (delta z0) na nb (rho z0) x.
  Proof. apply exact_law. exact Hx. Qed.

  Lemma c15_fractions : exists Y : nat -> pt n -> R,
    (forall k, (k < N)%nat -> reg (dual n) (Y k)) /\ (forall k, (k < N)%nat -> Y k z0 = nth k x 0) /\
    (forall k, (k < N)%nat -> 0 < Y k z0) /\
    near (dual n) (fun z => law N (fun k l => D k l z) (fun k => Y k z)) /\
    near (dual n) (fun z => forall k, (k < N)%nat -> 0 < Y k z).
  Proof.
    destruct c15_exact as [Lx Sx].
    destruct (implicit_regular N n D (fun k => nth k x 0)) as (Y & RY & Y0 & LY).
    - intros k l Hk Hl. exact (Dz_reg n m delta delta2 (fun _ => na) (fun _ => nb) rho (map E na) (map E nb) rho2 c15_Td (c15_Tc na) (c15_Tc nb) c15_Tr k l Hk Hl).
    - intros k Hk. exact (proj2 (Sx k Hk)).
    - apply jac_msing; [exact c15_HD | intros k Hk; exact (proj1 (Sx k Hk))].
    - exists Y. do 2 (split; auto).
      assert (PY : forall k, (k < N)%nat -> 0 < Y k z0) by (intros k Hk; rewrite Y0 by auto; exact (proj1 (Sx k Hk))).
      do 2 (split; auto). apply (near_forall (dual n) N (fun k z => 0 < Y k z)). intros k Hk. destruct (RY k Hk) as (a & Ra). exact (rel_gt (dual n) _ _ 0 Ra (PY k Hk)).
  Qed.

  (** the list of site fractions as a function on R^n *)
  Definition fractions (Y : nat -> pt n -> R) (z : pt n) : list R := mk1 N (fun k => Y k z).
  Lemma fractions_nth Y z k : (k < N)%nat -> nth k (fractions Y z) 0 = Y k z.
  Proof. intros Hk. exact (nth_mk1 N (fun k => Y k z) k 0 Hk). Qed.
  Lemma fractions_law Y z : law N (fun k l => D k l z) (fun k => Y k z) -> (forall k, (k < N)%nat -> 0 < Y k z) ->
    site_law m (str z) sna snb (den z) (fractions Y z).
  Proof.
    intros Lw Ps. apply (exact_law m (delta z) na nb (rho z)). split; [apply mk1_length | ]. intros k Hk.
    rewrite fractions_nth by auto. split; auto. etransitivity; [ | exact (Lw k Hk)]. f_equal. f_equal. unfold row. apply Sum_ext. intros l Hl.
    rewrite fractions_nth by auto. reflexivity.
  Qed.

  (** Core: c dual Newton steps from the exact solution. *)
  Theorem C15_newton_derivatives : exists X : pt n -> list R,
    X z0 = x /\ near (dual n) (fun z => site_law m (str z) sna snb (den z) (X z)) /\
    forall c, exists xc, dual_newton c (map E x) = Ok xc /\ length xc = (2 * m)%nat /\
      forall k s, (k < 2 * m)%nat -> length s = n -> (order s < 2 ^ c)%nat ->
        exists r, coef n s (ix xc k) = Fin r /\ partial n s (fun z => nth k (X z) 0) r.
  Proof.
    destruct c15_exact as [Lx Sx]. destruct c15_fractions as (Y & RY & Y0 & PY & LY & NY).
    exists (fractions Y). split; [ | split].
    - apply (nth_ext _ _ 0 0); [unfold fractions; rewrite mk1_length; auto | ]. intros k Hk. unfold fractions in Hk. rewrite mk1_length in Hk.
      rewrite fractions_nth by auto. auto.
    - eapply near_imp; [ | exact (near_and _ _ _ LY NY)]. intros z [A B]. apply fractions_law; auto.
    - intros c.
      destruct (dual_steps n m delta delta2 (fun _ => na) (fun _ => nb) rho (map E na) (map E nb) rho2 c15_Td (c15_Tc na) (c15_Tc nb) c15_Tr lu tol Hlu c15_HD
        Y LY PY c (fun k _ => nth k x 0) (map E x) 1) as (xc & X' & Ec & Lc & Rc & Fc).
      + rewrite map_length. auto.
      + intros k Hk. exact (tr_ix (TRn n) _ _ k (c15_Tc x)).
      + lia.
      + intros k Hk. apply flat_one.
        * apply reg_sub; auto. apply reg_const.
        * rewrite Y0 by auto. ring.
      + exists xc. split; auto. split; [lia | ]. intros k s Hk Hs Ho. assert (Hk' : (k < N)%nat) by lia.
        destruct (RY k Hk') as (a & Ra). destruct (rel_represents n _ _ Ra s Hs) as (r & Er & Pr). exists r. split.
        * pose proof (flat_coef n _ _ _ s (tr_sub _ _ (TRn n) _ _ _ _ (Rc k Hk') Ra) (Fc k Hk') Hs ltac:(lia)) as Z.
          rewrite coef_sub, Er in Z. destruct (rel_finite n _ _ (Rc k Hk') s Hs) as (q & Eq). rewrite Eq in Z |- *. cbn in Z.
          injection Z as Z. f_equal. lra.
        * eapply partial_near; [ | exact Pr]. apply near_all. intros z. rewrite fractions_nth by auto. reflexivity.
  Qed.

  (** c = n steps, as performed by the routine, give everything: fractions ... *)
  Theorem C15_all_orders : exists X : pt n -> list R,
    X z0 = x /\ near (dual n) (fun z => site_law m (str z) sna snb (den z) (X z)) /\
    exists xn, dual_newton n (map E x) = Ok xn /\ length xn = (2 * m)%nat /\
      (forall k, (k < 2 * m)%nat -> represents n (fun z => nth k (X z) 0) (ix xn k)) /\
      (** ... and Helmholtz energy density *)
      represents n (fun z => site_energy m sna snb (den z) (X z)) (ca_energy m (map E na) (map E nb) rho2 xn).
  Proof.
    destruct C15_newton_derivatives as (X & X0 & LX & H). exists X. do 2 (split; auto).
    destruct (H n) as (xn & En & Ln & Rn). exists xn. do 2 (split; auto).
    assert (RX : forall k, (k < 2 * m)%nat -> represents n (fun z => nth k (X z) 0) (ix xn k)).
    { intros k Hk s Hs. apply Rn; auto. pose proof (order_le n s Hs). pose proof (pow2_gt n). lia. }
    split; auto.
    assert (Tx : lrel (TRn n) (fun z => mk1 N (fun k => nth k (X z) 0)) xn).
    { apply lrel_fun; [lia | ]. intros k Hk. apply represents_rel, RX. lia. }
    apply rel_represents.
    eapply (rel_near (dual n)); [ | apply (tr_energy (TRn n) m (fun _ => na) (fun _ => nb) rho _ (map E na) (map E nb) rho2 xn (c15_Tc na) (c15_Tc nb) c15_Tr Tx)].
    - eapply near_imp; [ | exact LX]. intros z (Lz & _ & _). cbv beta. rewrite energy_spec. unfold site_energy. apply Sum_ext. intros i Hi.
      unfold fa, fb. rewrite !nth_mk1 by lia. reflexivity.
    - intros i Hi. destruct (ix_half m (fun k => nth k (X z0) 0) i Hi) as [-> ->]. rewrite X0. destruct Hx as (_ & P & _). exact (P i Hi).
  Qed.

  (* -------------------------------------------------------- the preceding real iteration *)
  Hypothesis Sq2 : square m delta2.
  Variable tolR : R.
  Hypothesis Htol : 0 < tolR.
  Notation real_step := (newton_step lu m (map (map nre) delta2) (map E na) (map E nb) (map nre rho2) (E tolR)).
  Lemma Ok_inj {A} (a b : A) : Ok a = Ok b -> a = b.
  Proof. congruence. Qed.

  (** the real iteration accepts the exact solution at once and leaves it as it is *)
  Lemma c15_real_step : real_step (map E x) = Ok (map E x, true).
  Proof.
    destruct c15_exact as [Lx Sx].
    assert (Td0 : forall i j, (i < m)%nat -> (j < m)%nat -> rel (TRn n) (fun _ => @ix2 RNum (delta z0) i j) (ix2 (map (map nre) delta2) i j)).
    { intros i j Hi Hj. destruct Sq2 as [S1 S2].
      assert (Ei : ix2 (map (map nre) delta2) i j = nre (ix2 delta2 i j)).
      { unfold ix2.
        assert (E1 : nth i (map (map nre) delta2) [] = map nre (nth i delta2 [])).
        { etransitivity; [apply (nth_indep _ [] (map nre [])); rewrite map_length, S1; exact Hi | apply (map_nth (map nre))]. }
        rewrite E1. unfold ix.
        etransitivity; [apply (nth_indep _ _ (nre n0)); rewrite map_length, (S2 (nth i delta2 [])); [exact Hj | apply nth_In; rewrite S1; exact Hi] | ].
        apply (map_nth nre). }
      rewrite Ei. exact (rel_nre n _ _ (c15_Td i j Hi Hj)). }
    pose proof (lrel_nre n _ _ c15_Tr) as Tr0.
    destruct (dual_step n m (fun _ => delta z0) (map (map nre) delta2) (fun _ => na) (fun _ => nb) (fun _ => rho z0) (map E na) (map E nb) (map nre rho2)
      Td0 (c15_Tc na) (c15_Tc nb) Tr0 lu (E tolR) Hlu c15_HD (fun k _ => nth k x 0) (map E x)) as (x2' & b & X' & Es & L' & R' & S').
    { rewrite map_length. exact Lx. }
    { intros k Hk. exact (tr_ix (TRn n) _ _ k (c15_Tc x)). }
    { intros k Hk. exact (proj1 (Sx k Hk)). }
    rewrite Es.
    assert (Ex : x2' = map E x).
    { apply (nth_ext _ _ n0 n0); [rewrite map_length; congruence | ]. intros k Hk. rewrite L' in Hk.
      change (ix x2' k = ix (map E x) k). eapply (rel_fun (dual n)); [ | exact (tr_ix (TRn n) _ _ k (c15_Tc x))].
      eapply (rel_near (dual n)); [ | exact (R' k Hk)]. eapply near_imp; [ | exact S']. intros z A. cbv beta in *.
      assert (Zr : forall l, (l < N)%nat -> nth l x 0 - X' l z = 0).
      { apply (jac_msing m (fun k l => D k l z0) (fun k => nth k x 0)); [exact c15_HD | intros l Hl; exact (proj1 (Sx l Hl)) | ].
        intros l Hl. etransitivity; [exact (A l Hl) | ]. pose proof (proj2 (Sx l Hl)) as Sl. unfold row in Sl.
        change (nth l x 0 * (1 + (Sum i < N, D l i z0 * nth i x 0)) = 1) in Sl.
        change (nth l x 0 * (1 + (Sum i < N, D l i z0 * nth i x 0)) - 1 = 0). lra. }
      specialize (Zr k Hk). change (@ix RNum x k) with (nth k x 0). lra. }
    subst x2'. f_equal. f_equal.
    unfold newton_step in Es. match type of Es with match ?q with _ => _ end = _ => destruct q as [dx | ] end; [ | discriminate].
    apply Ok_inj in Es. apply (f_equal snd) in Es. cbn [snd] in Es. rewrite <- Es. clear Es.
    assert (Nz : nz m x).
    { intros i Hi. rewrite (ix_firstn (K := RNum)), (ix_skipn (K := RNum)) by auto.
      pose proof (proj1 (Sx i ltac:(lia))). pose proof (proj1 (Sx (m + i)%nat ltac:(lia))). unfold ix. cbn in *. lra. }
    pose proof (tr_grad (TRn n) m (fun _ => delta z0) (map (map nre) delta2) (fun _ => na) (fun _ => nb) (fun _ => rho z0) (fun _ => x)
      (map E na) (map E nb) (map nre rho2) (map E x) Td0 (c15_Tc na) (c15_Tc nb) Tr0 (c15_Tc x) Nz) as Tg.
    apply lrel_nre in Tg. cbv beta in Tg. set (g := @ca_grad RNum m (delta z0) na nb (rho z0) x) in *.
    set (g2 := ca_grad m (map (map nre) delta2) (map E na) (map E nb) (map nre rho2) (map E x)) in *. unfold norm.
    assert (Rs : rel (TRn n) (fun _ => 0) (nsum (map (fun x => nmul x x) (map nre g2)))).
    { assert (T2 : lrel (TRn n) (fun _ => map (fun x => x * x) g) (map (fun x => nmul x x) (map nre g2))).
      { apply (lrel_map (TRn n) (fun _ x => x * x) (fun x => nmul x x) (fun _ => g)); auto. intros f a Hf. exact (tr_mul _ _ (TRn n) _ _ _ _ Hf Hf). }
      pose proof (tr_nsum (TRn n) _ _ T2) as T3. cbv beta in T3.
      assert (Z : @nsum RNum (map (fun x => x * x) g) = 0); [ | rewrite Z in T3; exact T3].
      rewrite nsum_R, rsum_map. change (rsum g (fun i : R => i * i) = 0). rewrite (rsum_nth _ 0). unfold g at 1. rewrite (ca_grad_length (K := RNum)).
      apply rsum_zero. intros k Hk. apply seq_in in Hk.
      assert (G : nth k g 0 = 0).
      { etransitivity; [exact (grad_R m (delta z0) na nb (rho z0) x k Lx Hk) | ].
        exact (proj1 (exact_resid m (delta z0) na nb (rho z0) x Lx (fun k Hk => proj1 (Sx k Hk))) c15_exact k Hk). }
      cbv beta. change (nth k g 0 * nth k g 0 = 0). rewrite G. ring. }
    rewrite nltb_coef, sqrt_coef, (rel_coef n _ _ Rs), (rel_coef n _ _ (tr_emb _ _ (TRn n) tolR)). cbn.
    destruct (Rlt_dec 0 0) as [Hlt | _]; [lra | ]. rewrite sqrt_0. apply Rltb_true. exact Htol.
  Qed.
  Lemma c15_real_loop max_iter : newton_loop real_step max_iter (map E x) = Ok (map E x).
  Proof. destruct max_iter as [ | k]; [reflexivity | ]. cbn [newton_loop]. rewrite c15_real_step. reflexivity. Qed.
End C15.

(** One infinitesimal, one step: real part unchanged, dual part the derivative of the fractions. *)
Theorem C15_first_derivative (m : nat) (delta : R -> list (list R)) (na nb : list R) (rho : R -> list R)
  (delta2 : list (list (xr * xr))) (rho2 : list (xr * xr)) (lu : lu_solver (DualOf XNum)) (tol : xr * xr) (x : list R) :
  (forall i j, (i < m)%nat -> (j < m)%nat -> exists d, is_derive (fun e => @ix2 RNum (delta e) i j) 0 d /\
     @ix2 (DualOf XNum) delta2 i j = (Fin (@ix2 RNum (delta 0) i j), Fin d)) ->
  (forall e, length (rho e) = m) -> length rho2 = m ->
  (forall i, (i < m)%nat -> exists d, is_derive (fun e => @ix RNum (rho e) i) 0 d /\
     @ix (DualOf XNum) rho2 i = (Fin (@ix RNum (rho 0) i), Fin d)) ->
  (forall i j, (i < m)%nat -> (j < m)%nat -> 0 <= @ix2 RNum (delta 0) i j) ->
  (forall i, (i < m)%nat -> 0 <= @ix RNum na i /\ 0 <= @ix RNum nb i /\ 0 <= @ix RNum (rho 0) i) ->
  lu_dual 1 lu ->
  let law e := site_law m (fun i j => @ix2 RNum (delta e) i j) (fun i => @ix RNum na i) (fun i => @ix RNum nb i) (fun i => @ix RNum (rho e) i) in
  law 0 x ->
  exists X : R -> list R, X 0 = x /\ locally 0 (fun e => law e (X e)) /\
    exists x1 b, @newton_step (DualOf XNum) lu m delta2 (map (fun r => (Fin r, Fin 0)) na) (map (fun r => (Fin r, Fin 0)) nb) rho2 tol
        (map (fun r => (Fin r, Fin 0)) x) = Ok (x1, b) /\ length x1 = (2 * m)%nat /\
      forall k, (k < 2 * m)%nat -> exists d, is_derive (fun e => nth k (X e) 0) 0 d /\ @ix (DualOf XNum) x1 k = (Fin (nth k x 0), Fin d).
Proof.
  intros Hd Lr Lr2 Hr Pd Ps Hlu law Hx.
  assert (Em : forall l, map (emb (TRn 1)) l = map (fun r => (Fin r, Fin 0)) l).
  { intros l. apply map_ext. intros r. change (emb (TRn 1) r) with (Fin r, Fin (Rlit 0)). reflexivity. }
  assert (Rp : forall (f : R -> R) (a : xr * xr), (exists d, is_derive f 0 d /\ a = (Fin (f 0), Fin d)) -> represents 1 (fun z => f (fst z)) a).
  { intros f a (d & Df & ->). intros s Hs. destruct s as [ | [ | ] [ | ]]; try discriminate.
    - exists d. split; auto. cbn. exists (fun _ => d). split; [exact Df | reflexivity].
    - exists (f 0). split; auto. reflexivity. }
  destruct (C15_newton_derivatives 1 m (fun z => delta (fst z)) na nb (fun z => rho (fst z)) delta2 rho2) with (lu := lu) (tol := tol) (x := x)
    as (X & X0 & LX & H).
  - intros i j Hi Hj. apply (Rp (fun e => @ix2 RNum (delta e) i j)). auto.
  - split; auto.
  - intros i Hi. apply (Rp (fun e => @ix RNum (rho e) i)). auto.
  - exact Pd.
  - exact Ps.
  - exact Hlu.
  - exact Hx.
  - exists (fun e => X (e, tt)). split; [exact X0 | split; [exact LX | ]].
    destruct (H 1%nat) as (x1 & E1 & L1 & R1). rewrite !Em in E1. cbn [newton_deriv] in E1.
    match type of E1 with match ?q with _ => _ end = _ => destruct q as [[x1' b] | ] eqn:Es end; [ | discriminate].
    assert (x1' = x1) by congruence. subst x1'. exists x1, b. split; [exact Es | split; [exact L1 | ]].
    intros k Hk. destruct (R1 k [true] Hk eq_refl) as (d & Ed & g & Dg & Pg). { cbn. lia. }
    destruct (R1 k [false] Hk eq_refl) as (r & Er & Pr). { cbn. lia. }
    exists d. cbn in Pg, Pr, Dg. rewrite Pg in Dg. split; [exact Dg | ].
    assert (Ew : snd (@ix (DualOf XNum) x1 k) = Fin d) by exact Ed. assert (Eu : fst (@ix (DualOf XNum) x1 k) = Fin r) by exact Er.
    rewrite (surjective_pairing (@ix (DualOf XNum) x1 k)), Ew, Eu. f_equal. f_equal. rewrite <- Pr, <- X0. reflexivity.
Qed.

(* ------------------------------------------------------------------- the whole routine *)
Lemma site_law_ext m D D' na na' nb nb' rho rho' x :
  (forall i j, (i < m)%nat -> (j < m)%nat -> D i j = D' i j) ->
  (forall i, (i < m)%nat -> na i = na' i /\ nb i = nb' i /\ rho i = rho' i) ->
  site_law m D na nb rho x -> site_law m D' na' nb' rho' x.
Proof.
  intros HD Hn (Lx & Px & H). split; auto. split; auto. intros i Hi. destruct (H i Hi) as [A B].
  unfold bonds_a, bonds_b in *. split.
  - etransitivity; [ | exact A]. do 2 f_equal. apply Sum_ext. intros j Hj. destruct (Hn j Hj) as (E1 & E2 & E3). rewrite HD, E2, E3 by auto. reflexivity.
  - etransitivity; [ | exact B]. do 2 f_equal. apply Sum_ext. intros j Hj. destruct (Hn j Hj) as (E1 & E2 & E3). rewrite HD, E1, E3 by auto. reflexivity.
Qed.
Lemma site_energy_ext m na na' nb nb' rho rho' x : (forall i, (i < m)%nat -> na i = na' i /\ nb i = nb' i /\ rho i = rho' i) ->
  site_energy m na nb rho x = site_energy m na' nb' rho' x.
Proof. intros Hn. apply Sum_ext. intros i Hi. destruct (Hn i Hi) as (-> & -> & ->). reflexivity. Qed.

Section Routine.
  Variables (prs : list (pure_record RNum)) (bin : list (list R)) (p : params RNum).
  Hypothesis Hp : from_records prs bin = Some p.
  Hypothesis Hph : phys p.
  Hypothesis Hap : assoc_phys p.
  (** order, state and directions, as in P_Dual.v *)
  Variables (n : nat) (t v : R) (dt dv : list R) (seeds : list (R * list R)).
  Hypothesis PS : phys_state p t v (map fst seeds).
  Notation z0 := (lz (dual n)). Notation X := (mix_of p). Notation m := (p_nassoc p). Notation E := (emb (TRn n)).
  Notation temp z := (aff n t dt z). Notation vol z := (aff n v dv z).
  Notation moles z := (map (fun md => aff n (fst md) (snd md) z) seeds).
  Notation rho z := (fun i => nth i (moles z) 0 / vol z).
  (** law of mass action and Helmholtz energy density at the state with parameter z *)
  Definition law_at (z : pt n) (x : list R) : Prop :=
    site_law m (fun i j => Delta X (temp z) (rho z) (comp p i) (comp p j)) (fun i => Na X (comp p i)) (fun i => Nb X (comp p i)) (fun i => rho z (comp p i)) x.
  Definition energy_at (z : pt n) (x : list R) : R :=
    site_energy m (fun i => Na X (comp p i)) (fun i => Nb X (comp p i)) (fun i => rho z (comp p i)) x.

  Theorem C15_cross_association (lu : lu_solver (lK (dual n))) max_iter (tol : R) (x : list R) : lu_dual n lu -> 0 < tol ->
    / 2 ^ 52 <= rsum (seq 0 (length seeds)) (rho z0) -> law_at z0 x ->
    let q := dparams p n in let s := dstate n t v dt dv seeds in
    exists (F : pt n -> list R) a, F z0 = x /\ near (dual n) (fun z => law_at z (F z)) /\
      cross_association lu q (s_t s) (s_rho s) (seg_radius q (s_t s)) (assoc_n2 q (s_t s) (s_rho s))
        (nrecip (nadd (nopp (packing q (s_t s) (s_rho s))) (nlit 1%Q))) n1 max_iter (E tol) (Some (map E x)) = (Ok a, Some (map E x)) /\
      represents n (fun z => energy_at z (F z)) a.
  Proof.
    intros Hlu Htol Hrho Hx q s.
    pose (W := wfp_from_records prs bin p Hp). pose proof (PS' p n t v dt dv seeds PS) as PSz.
    pose (Tt := rel_aff n t dt). pose (Tv := rel_aff n v dv). pose (TM := Tm n seeds).
    set (st := fun z => @state_new RNum (temp z) (vol z) (moles z)).
    pose proof (tr_rho (TRn n) p (fun z => temp z) (fun z => vol z) (seed n t dt) (seed n v dv) _ _ Tv TM PSz) as Trho.
    pose proof (tr_n2 (TRn n) p _ _ _ _ _ _ Tt Tv TM PSz) as Tn2.
    pose proof (tr_n3i (TRn n) p W Hph _ _ _ _ _ _ Tt Tv TM PSz) as Tn3.
    pose proof (tr_packing (TRn n) p _ _ _ _ _ _ Tt Tv TM PSz) as Teta.
    pose proof (fun i j Hi Hj => tr_strength (TRn n) p W Hph (fun z => temp z) (fun z => vol z) _ (fun z => moles z) Tt PSz (comp p i) (comp p j) _ _ (fun _ => @n1 RNum) _ _ _
      (comp_lt p W i Hi) (comp_lt p W j Hj) Tn2 Tn3 (tr_n1 (TRn n))) as Tstr.
    set (n2' := assoc_n2 q (s_t s) (s_rho s)). set (n3' := nrecip (nadd (nopp (packing q (s_t s) (s_rho s))) (nlit 1%Q))).
    set (D2 := ca_delta q (s_t s) (seg_radius q (s_t s)) n2' n3' n1).
    set (r2 := ca_sel q (s_rho s)).
    set (Dz := fun z => F_Cross.delta_ p (temp z) (vol z) (moles z)).
    set (rz := fun z => rho_ p (temp z) (vol z) (moles z)).
    assert (Lm : forall z, length (moles z) = length (p_m p)).
    { intros z. rewrite map_length. pose proof (ps_len _ _ _ _ PS) as H. rewrite map_length in H. exact H. }
    assert (Hd : forall i j, (i < m)%nat -> (j < m)%nat -> represents n (fun z => @ix2 RNum (Dz z) i j) (ix2 D2 i j)).
    { intros i j Hi Hj. apply rel_represents. unfold D2, ca_delta. change (p_nassoc q) with m. rewrite ix2_mk2 by auto.
      eapply (rel_near (dual n)); [ | exact (Tstr i j Hi Hj)]. apply near_all. intros z. unfold Dz, F_Cross.delta_, ca_delta. rewrite ix2_mk2 by auto. reflexivity. }
    assert (Sel : forall l, ca_sel q (map E l) = map E (ca_sel p l)).
    { intros l. unfold ca_sel. change (p_nassoc q) with m. unfold mk1. rewrite map_map. apply map_ext. intros i.
      eapply (rel_fun (dual n)); [exact (tr_ix1 (TRn n) l _) | exact (tr_emb _ _ (TRn n) _)]. }
    assert (Hr : forall i, (i < m)%nat -> represents n (fun z => @ix RNum (rz z) i) (ix r2 i)).
    { intros i Hi. apply rel_represents. unfold r2, ca_sel. change (p_nassoc q) with m. rewrite ix_mk1 by auto.
      eapply (rel_near (dual n)); [ | exact (tr_ix (TRn n) _ _ (comp p i) Trho)]. apply near_all. intros z. unfold rz, rho_, ca_sel. rewrite ix_mk1 by auto. reflexivity. }
    assert (Erho : forall z i, (i < m)%nat -> @ix RNum (rz z) i = rho z (comp p i)).
    { intros z i Hi. unfold rz, rho_, ca_sel. rewrite ix_mk1 by auto. apply (s_rho_ix p (temp z) (vol z) (moles z) (Lm z)). apply comp_lt; auto. }
    assert (Ed : near (dual n) (fun z => forall i j, (i < m)%nat -> (j < m)%nat -> @ix2 RNum (Dz z) i j = Delta X (temp z) (rho z) (comp p i) (comp p j))).
    { assert (N1 : near (dual n) (fun z => 0 < temp z)).
      { apply (rel_gt (dual n) _ _ 0 Tt). rewrite aff_base. exact (ps_t _ _ _ _ PS). }
      assert (N2 : near (dual n) (fun z => packing p (temp z) (s_rho (st z)) < 1)).
      { apply (rel_lt (dual n) _ _ 1 Teta). cbv beta. rewrite (packing_spec p W) by apply (ps_len _ _ _ _ PSz).
        exact (Zeta3_lt1 p _ _ _ PSz). }
      eapply near_imp; [ | exact (near_and _ _ _ N1 N2)]. intros z [A B] i j Hi Hj.
      unfold Dz, F_Cross.delta_, ca_delta. rewrite ix2_mk2 by auto. unfold n2_, n3i_.
      rewrite (assoc_n2_spec p W _ _ _ (Lm z)), (packing_spec p W _ _ _ (Lm z)). unfold st in B. rewrite (packing_spec p W _ _ _ (Lm z)) in B. rn. unfold Eta in *.
      replace (- Zeta X (temp z) (rho z) 3 + 1) with (1 - Zeta X (temp z) (rho z) 3) by ring.
      apply (association_strength_spec p W Hph (temp z) (vol z) (moles z)); auto; try (apply comp_lt; auto). lra. }
    assert (En : forall z i, (i < m)%nat -> @ix RNum (na_ p) i = Na X (comp p i) /\ @ix RNum (nb_ p) i = Nb X (comp p i) /\ @ix RNum (rz z) i = rho z (comp p i)).
    { intros z i Hi. split; [apply na_ix; auto | ]. split; [apply nb_ix; auto | auto]. }
    pose proof (near_z (dual n) _ Ed) as Ed0. cbv beta in Ed0.
    assert (Pd : forall i j, (i < m)%nat -> (j < m)%nat -> 0 <= @ix2 RNum (Dz z0) i j).
    { intros i j Hi Hj. rewrite Ed0 by auto. apply (Delta_nonneg p Hph Hap _ _ _ PSz); apply comp_lt; auto. }
    assert (Pn : forall i, (i < m)%nat -> 0 <= @ix RNum (na_ p) i /\ 0 <= @ix RNum (nb_ p) i /\ 0 <= @ix RNum (rz z0) i).
    { intros i Hi. destruct (En z0 i Hi) as (-> & -> & ->). destruct (Hap (comp p i) (comp_lt p W i Hi)) as (_ & _ & A & B).
      split; [exact A | ]. split; [exact B | ]. apply (rho_nonneg p _ _ _ PSz). apply comp_lt; auto. }
    assert (Lr : (forall z, length (rz z) = m) /\ length r2 = m).
    { split; [intros z; unfold rz, rho_, ca_sel | unfold r2, ca_sel]; apply mk1_length. }
    assert (Hx' : site_law m (fun i j => @ix2 RNum (Dz z0) i j) (fun i => @ix RNum (na_ p) i) (fun i => @ix RNum (nb_ p) i) (fun i => @ix RNum (rz z0) i) x).
    { eapply site_law_ext; [ | | exact Hx]; [intros; symmetry; auto | ]. intros i Hi. destruct (En z0 i Hi) as (-> & -> & ->). auto. }
    assert (Sq : square m D2).
    { unfold D2, ca_delta. change (p_nassoc q) with m. split; [apply mk1_length | ]. intros r Hr'. unfold mk2, mk1 in Hr'. apply in_map_iff in Hr'.
      destruct Hr' as (i & <- & _). rewrite map_length, seq_length. reflexivity. }
    destruct (C15_all_orders n m Dz (na_ p) (nb_ p) rz D2 r2 Hd Lr Hr Pd Pn lu (E tol) Hlu x Hx') as (F & F0 & LF & xn & Exn & Lxn & _ & Rxn).
    pose proof (c15_real_loop n m Dz (na_ p) (nb_ p) rz D2 r2 Hd Lr Hr Pd Pn lu Hlu x Hx' Sq tol Htol max_iter) as Lp.
    exists F. eexists. split; auto. split; [ | split].
    - eapply near_imp; [ | exact (near_and _ _ _ Ed LF)]. intros z [A B]. eapply site_law_ext; [ | | exact B]; auto. 
    - unfold cross_association. fold n2' n3'. change (p_nassoc q) with m. fold D2 r2.
      assert (Eps : nltb (nsum (s_rho s)) f_eps = false).
      { pose proof (tr_ltb _ _ (TRn n) _ _ _ _ (tr_nsum (TRn n) _ _ Trho) (tr_lit _ _ (TRn n) (1 # 4503599627370496))) as Tb.
        unfold f_eps. etransitivity; [exact Tb | ]. change (@nltb RNum) with Rltb. apply Rltb_false. cbv beta.
        assert (Es : @nsum RNum (s_rho (@state_new RNum (temp z0) (vol z0) (moles z0))) = rsum (seq 0 (length seeds)) (rho z0)).
        { rewrite nsum_R. etransitivity; [exact (rsum_nth _ 0 (fun x => x)) | ].
          assert (Ls : length (s_rho (@state_new RNum (temp z0) (vol z0) (moles z0))) = length seeds) by (cbn [s_rho state_new]; rewrite !map_length; reflexivity).
          etransitivity; [exact (f_equal (fun k => rsum (seq 0 k) (fun i => nth i (s_rho (@state_new RNum (temp z0) (vol z0) (moles z0))) 0)) Ls) | ].
          apply Sum_ext. intros i Hi. apply (s_rho_ix p (temp z0) (vol z0) (moles z0) (Lm z0)). rewrite <- (Lm z0), map_length. exact Hi. }
        rewrite Es. cbn. unfold Rlit. cbn. lra. }
      rewrite Eps. change (p_na q) with (map E (p_na p)). change (p_nb q) with (map E (p_nb p)). rewrite !Sel.
      change (ca_sel p (p_na p)) with (na_ p). change (ca_sel p (p_nb p)) with (nb_ p). rewrite Lp, nderiv_dual, Exn. reflexivity.
    - apply rel_represents. eapply (rel_near (dual n)); [ | exact (represents_rel n _ _ Rxn)]. apply near_all. intros z. unfold energy_at.
      apply site_energy_ext. intros i Hi. destruct (En z i Hi) as (-> & -> & ->). auto.
  Qed.

  (** the exact start vector exists and is unique *)
  Theorem C15_start_exists : exists x, law_at z0 x /\ forall y, law_at z0 y -> y = x.
  Proof.
    pose (W := wfp_from_records prs bin p Hp). pose proof (PS' p n t v dt dv seeds PS) as PSz.
    destruct (C14_exists_unique m (fun i j => Delta X (temp z0) (rho z0) (comp p i) (comp p j)) (fun i => Na X (comp p i)) (fun i => Nb X (comp p i))
      (fun i => rho z0 (comp p i))) as (x & Hx & _ & U).
    - intros i j Hi Hj. apply (Delta_nonneg p Hph Hap _ _ _ PSz); apply comp_lt; auto.
    - intros i Hi. destruct (Hap (comp p i) (comp_lt p W i Hi)) as (_ & _ & A & B).
      split; [exact A | ]. split; [exact B | ]. apply (rho_nonneg p _ _ _ PSz). apply comp_lt; auto.
    - exists x. auto.
  Qed.
End Routine.

(** two isotopologues of water: all derivatives of any order in temperature, volume and moles *)
Example C15_case (n : nat) (dt dv d0 d1 : list R) :
  let seeds := [(1, d0); (1, d1)] in let E := emb (TRn n) in
  let q := dparams ww n in let s := dstate n 350 1000 dt dv seeds in
  exists x F a, F (lz (dual n)) = x /\ near (dual n) (fun z => law_at ww n 350 1000 dt dv seeds z (F z)) /\
    cross_association (gaussK_lu (lK (dual n))) q (s_t s) (s_rho s) (seg_radius q (s_t s)) (assoc_n2 q (s_t s) (s_rho s))
      (nrecip (nadd (nopp (packing q (s_t s) (s_rho s))) (nlit 1%Q))) n1 50 (E (/ 10 ^ 10)) (Some (map E x)) = (Ok a, Some (map E x)) /\
    represents n (fun z => energy_at ww n 1000 dv seeds z (F z)) a.
Proof.
  intros seeds E q s. assert (PS : phys_state ww 350 1000 (map fst seeds)) by (apply ww_state; lra).
  destruct (C15_start_exists _ _ ww ww_ok ww_phys ww_assoc n 350 1000 dt dv seeds PS) as (x & Hx & _).
  destruct (C15_cross_association _ _ ww ww_ok ww_phys ww_assoc n 350 1000 dt dv seeds PS (gaussK_lu _) 50 (/ 10 ^ 10) x) as (F & a & H).
  - apply gaussK_lu_dual.
  - lra.
  - unfold seeds. cbn [length seq rsum map nth fst snd fold_right]. rewrite !aff_base. lra.
  - exact Hx.
  - exists x, F, a. exact H.
Qed.

Print Assumptions C15_newton_derivatives.
Print Assumptions C15_all_orders.
Print Assumptions C15_first_derivative.
Print Assumptions C15_cross_association.
Print Assumptions C15_start_exists.
