(** The Newton iteration of the cross-association with nested dual numbers: each step doubles the
    order to which the iterate agrees with the exact, implicitly defined site fractions. *)
From Coq Require Import ZArith QArith Reals Lra Lia String List Bool.
From Coquelicot Require Import Coquelicot.
From Verif Require Import Num RNum RSum Tables M_Params F_Params M_Eos F_Newton F_Gauss F_MassAction F_MassAction2 F_NewtonR
  F_Transfer XNum F_Transfer2 F_Transfer3 DNum F_Level F_Linear F_Implicit P_Dual P_Dual2.
Import ListNotations.
Local Open Scope R_scope.
Set Bullet Behavior "Strict Subproofs".
Notation length := List.length.

(* ---------------------------------------------------------------- finite dual numbers *)
(** all coefficients are finite *)
Definition finite_num (n : nat) (a : dnum n) : Prop := forall s, length s = n -> exists r, coef n s a = Fin r.
(** real part *)
Definition real_part (n : nat) (a : dnum n) : R := match coef n [] a with Fin r => r | _ => 0 end.

Lemma coef_nil n (a : dnum n) : coef n [] a = coef n (repeat false n) a.
Proof. induction n as [ | n IH]; auto. cbn [coef repeat hd tl]. apply IH. Qed.
Lemma rel_finite n f a : rel (TRn n) f a -> finite_num n a.
Proof. intros H s Hs. destruct (rel_represents n f a H s Hs) as (r & E & _). eauto. Qed.
Lemma rel_real n f a : rel (TRn n) f a -> real_part n a = f (lz (dual n)).
Proof.
  intros H. unfold real_part.
  assert (E : coef n [] a = Fin (f (lz (dual n)))); [ | rewrite E; auto].
  revert f a H. induction n as [ | n IH]; intros f a H; [exact H | ]. destruct H as [A _]. exact (IH _ _ A).
Qed.
Lemma finite_rel n a : finite_num n a -> exists f, rel (TRn n) f a.
Proof.
  revert a. induction n as [ | n IH]; intros a H.
  - destruct (H [] eq_refl) as (r & E). exists (fun _ => r). exact E.
  - destruct (IH (fst a)) as (f0 & R0). { intros s Hs. exact (H (false :: s) ltac:(cbn; lia)). }
    destruct (IH (snd a)) as (f1 & R1). { intros s Hs. exact (H (true :: s) ltac:(cbn; lia)). }
    exists (fun z => f0 (snd z) + fst z * f1 (snd z)). split.
    + cbn [fst snd]. eapply (rel_near (dual n)); [ | exact R0]. apply near_all. intros y. cbv beta. change (f0 y = f0 y + 0 * f1 y). ring.
    + exists f1. split; auto. apply near_all. intros y. cbn [fst snd]. auto_derive; auto. ring.
Qed.
(** the relation of F_Level is the one of the specification *)
Theorem represents_rel n f a : represents n f a -> rel (TRn n) f a.
Proof.
  revert f a. induction n as [ | n IH]; intros f a H.
  - destruct (H [] eq_refl) as (r & E & P). cbn in *. congruence.
  - split.
    + apply IH. intros s Hs. exact (H (false :: s) ltac:(cbn; lia)).
    + destruct (H (true :: repeat false n) ltac:(cbn; rewrite repeat_length; lia)) as (r0 & _ & g & Dg & _).
      exists g. split; auto. apply IH. intros s Hs. destruct (H (true :: s) ltac:(cbn; lia)) as (r & E & g' & Dg' & Pg').
      exists r. split; auto. eapply partial_near; [ | exact Pg'].
      eapply near_imp; [ | exact (near_and (dual n) _ _ Dg Dg')]. intros y [D1 D2].
      apply is_derive_unique in D1, D2. cbv beta. cbn [hd tl] in *. congruence.
Qed.
Lemma coef_add n s (a b : dnum n) : coef n s (nadd a b) = xadd (coef n s a) (coef n s b).
Proof.
  revert s a b. induction n as [ | n IH]; intros s a b; auto. cbn [coef].
  destruct (hd false s); cbn [nadd dual next lK DualOf fst snd]; apply IH.
Qed.
Lemma flat_coef n : forall j f e s, rel (TRn n) f e -> flat (dual n) j f -> length s = n -> (order s < j)%nat -> coef n s e = Fin 0.
Proof.
  induction n as [ | n IH]; intros j f e s H F Hs Ho.
  - pose proof (flat_nil 0 j f ltac:(lia) F) as E. cbn in E, H |- *. rewrite H. injection E as E. rewrite E. reflexivity.
  - destruct s as [ | b s]; [discriminate | ]. cbn [List.length] in Hs. destruct (flat_slice (dual n) j f F) as (F0 & g & Fg & Dg).
    destruct H as (A & h & B & Dh). cbn [coef hd tl]. destruct b; cbn [order] in Ho.
    + apply (IH (j - 1)%nat h); auto; [ | lia]. eapply flat_near; [ | exact Fg].
      eapply near_imp; [ | exact (near_and (dual n) _ _ Dg Dh)]. intros y [D1 D2]. apply is_derive_unique in D1, D2. cbv beta. congruence.
    + apply (IH j (fun y => f (0, y))); auto.
Qed.
Lemma flat_zero_at L j f : flat L (S j) f -> f (lz L) = 0.
Proof.
  intros F. remember (S j) as k. revert j Heqk. induction F; intros i Heqk.
  - discriminate.
  - rewrite H0. ring.
  - rewrite (IHF1 i), (IHF2 i) by auto. ring.
  - rewrite <- (near_z L _ H). eauto.
Qed.

(* ------------------------------------------------------------------- linear systems *)
(** exact solver for dual numbers: a system of finite dual numbers whose real part is nonsingular
    has its finite solution returned *)
Definition lu_dual (n : nat) (lu : lu_solver (lK (dual n))) : Prop :=
  forall N (h : list (list (dnum n))) (g : list (dnum n)), square N h -> length g = N ->
  (forall k l, (k < N)%nat -> (l < N)%nat -> finite_num n (ix2 h k l)) -> (forall k, (k < N)%nat -> finite_num n (ix g k)) ->
  nonsingular N (map (map (real_part n)) h) ->
  exists d, lu h g = Some d /\ length d = N /\ (forall k, (k < N)%nat -> finite_num n (ix d k)) /\
    forall k, (k < N)%nat -> nsumi N (fun l => nmul (ix2 h k l) (ix d l)) = ix g k.

Section Lin.
  Variable L : level.
  Notation TR := (lT L).
  Lemma rel_sumR N (f : nat -> lP L -> R) (a : nat -> car (lK L)) : (forall i, (i < N)%nat -> rel TR (f i) (a i)) ->
    rel TR (fun z => Sum i < N, f i z) (nsumi N a).
  Proof.
    intros H. eapply (rel_eq TR); [ | exact (tr_nsumi TR N f a H)]. intros z. cbv beta. rewrite nsumi_R. reflexivity.
  Qed.
  Lemma lin_dual N (H : nat -> nat -> lP L -> R) (b : nat -> lP L -> R) h2 b2 d2 :
    (forall k l, (k < N)%nat -> (l < N)%nat -> rel TR (H k l) (h2 k l)) -> (forall k, (k < N)%nat -> rel TR (b k) (b2 k)) ->
    msing N (fun k l => H k l (lz L)) ->
    (forall k, (k < N)%nat -> exists f, rel TR f (d2 k)) ->
    (forall k, (k < N)%nat -> nsumi N (fun l => nmul (h2 k l) (d2 l)) = b2 k) ->
    exists U : nat -> lP L -> R, (forall k, (k < N)%nat -> rel TR (U k) (d2 k)) /\
      near L (fun z => forall k, (k < N)%nat -> (Sum l < N, H k l z * U l z) = b k z).
  Proof.
    intros RH Rb M Rd Ed.
    assert (RH' : forall k l, (k < N)%nat -> (l < N)%nat -> reg L (H k l)) by (intros k l Hk Hl; exists (h2 k l); auto).
    destruct (linear_regular L N H RH' M) as [_ Sv].
    destruct (Sv b) as (U & RU & EU); [intros k Hk; exists (b2 k); auto | ].
    destruct (inverse_regular L N H RH' M) as (G & RG & EG).
    destruct (fin_choice (fun _ => 0) N (fun k f => rel TR f (d2 k)) Rd) as (d & Rd').
    destruct (fin_choice (fun _ => n0) N (fun k (g : nat -> car (lK L)) => forall l, (l < N)%nat -> rel TR (G k l) (g l))) as (G2 & RG2).
    { intros k Hk. apply (fin_choice n0 N (fun l g => rel TR (G k l) g)). intros l Hl. exact (RG k l Hk Hl). }
    exists U. split; auto. intros k Hk.
    assert (Inv : forall V : nat -> lP L -> R, near L (fun z => V k z = Sum m < N, G k m z * Sum l < N, H m l z * V l z)).
    { intros V. eapply near_imp; [ | exact EG]. intros z [_ A]. cbv beta.
      rewrite (Sum_ext N _ (fun m => Sum l < N, G k m z * H m l z * V l z)) by (intros m Hm; rewrite <- rsum_scal; apply Sum_ext; intros; ring).
      rewrite Sum_swap2. rewrite (Sum_ext N _ (fun l => delta_ k l * V l z)); [rewrite Sum_delta_l; auto | ].
      intros l Hl. rewrite <- (A k l Hk Hl), <- rsum_scal_r. reflexivity. }
    set (v := nsumi N (fun m => nmul (G2 k m) (b2 m))).
    assert (Vd : rel TR (d k) v).
    { apply (rel_near L (fun z => Sum m < N, G k m z * Sum l < N, H m l z * d l z)).
      - eapply near_imp; [ | exact (Inv d)]. intros z E. auto.
      - apply (rel_sumR N (fun m z => G k m z * Sum l < N, H m l z * d l z)). intros m Hm.
        apply (tr_mul _ _ TR (G k m) (fun z => Sum l < N, H m l z * d l z)); auto.
        rewrite <- (Ed m Hm). apply (rel_sumR N (fun l z => H m l z * d l z)). intros l Hl.
        exact (tr_mul _ _ TR _ _ _ _ (RH m l Hm Hl) (Rd' l Hl)). }
    assert (VU : rel TR (U k) v).
    { apply (rel_near L (fun z => Sum m < N, G k m z * b m z)).
      - eapply near_imp; [ | exact (near_and L _ _ (Inv U) EU)]. intros z [E1 E2]. cbv beta in *. rewrite E1. apply Sum_ext. intros m Hm. rewrite E2; auto.
      - apply (rel_sumR N (fun m z => G k m z * b m z)). intros m Hm. exact (tr_mul _ _ TR _ _ _ _ (RG2 k Hk m Hm) (Rb m Hm)). }
    rewrite (rel_fun L (d k) (d2 k) v (Rd' k Hk) Vd). exact VU.
  Qed.
End Lin.

(* ------------------------------------------------------------------------ one step *)
Section Step.
  Variables (n m : nat).
  Notation L := (dual n). Notation TR := (TRn n). Notation K := (lK (dual n)). Notation P := (pt n). Notation z0 := (lz (dual n)).
  Notation N := (m + m)%nat.
  Variables (delta : P -> list (list R)) (delta2 : list (list (dnum n))).
  Variables (na nb rho : P -> list R) (na2 nb2 rho2 : list (dnum n)).
  Hypothesis Td : forall i j, (i < m)%nat -> (j < m)%nat -> rel TR (fun u => @ix2 RNum (delta u) i j) (ix2 delta2 i j).
  Hypothesis Ta : lrel TR na na2.
  Hypothesis Tb : lrel TR nb nb2.
  Hypothesis Tr : lrel TR rho rho2.
  Variables (lu : lu_solver K) (tol : car K).
  Hypothesis Hlu : lu_dual n lu.
  Definition Dz (k l : nat) (z : P) : R := Dm m (delta z) (na z) (nb z) (rho z) k l.
  Hypothesis HD : forall k l, (k < N)%nat -> (l < N)%nat -> 0 <= Dz k l z0.

  Lemma Dz_reg k l : (k < N)%nat -> (l < N)%nat -> reg L (Dz k l).
  Proof.
    intros Hk Hl. set (T := TRn n). unfold Dz, Dm, ca_D. destruct (Nat.ltb_spec k m), (Nat.ltb_spec l m).
    - apply reg_const.
    - assert (Ik : (l - m < m)%nat) by lia. pose proof (Td k (l - m) H Ik). eexists. fold T in H1. tr T.
    - assert (Ik : (k - m < m)%nat) by lia. pose proof (Td (k - m) l Ik H0). eexists. fold T in H1. tr T.
    - apply reg_const.
  Qed.
  Lemma mk1_ix (l : list (car K)) : mk1 (length l) (ix l) = l.
  Proof.
    apply (nth_ext _ _ n0 n0); [apply mk1_length | ]. intros i Hi. rewrite mk1_length in Hi. rewrite nth_mk1 by auto. reflexivity.
  Qed.
  Lemma lrel_fun (X : nat -> P -> R) x2 : length x2 = N -> (forall k, (k < N)%nat -> rel TR (X k) (ix x2 k)) ->
    lrel TR (fun z => mk1 N (fun k => X k z)) x2.
  Proof. intros Lx RX. rewrite <- (mk1_ix x2) at 1. rewrite Lx. apply (lrel_mk1 TR N X (ix x2)). auto. Qed.
  Lemma ix_half (X : nat -> R) i : (i < m)%nat -> @ix RNum (firstn m (mk1 N X)) i = X i /\ @ix RNum (skipn m (mk1 N X)) i = X (m + i)%nat.
  Proof.
    intros Hi. rewrite (ix_firstn (K := RNum)), (ix_skipn (K := RNum)) by auto. unfold ix. rewrite !nth_mk1 by lia. auto.
  Qed.
  Lemma jac_msing d (y : nat -> R) : (forall k l, (k < N)%nat -> (l < N)%nat -> 0 <= d k l) -> (forall k, (k < N)%nat -> 0 < y k) ->
    msing N (jac N d y).
  Proof.
    intros Hd Hy u Hu. apply (linear_injective N d Hd y u Hy). intros k Hk. rewrite <- (Hu k Hk). rewrite jac_row by auto. reflexivity.
  Qed.

  Theorem dual_step (X : nat -> P -> R) x2 : length x2 = N -> (forall k, (k < N)%nat -> rel TR (X k) (ix x2 k)) ->
    (forall k, (k < N)%nat -> 0 < X k z0) ->
    exists x2' b (X' : nat -> P -> R), newton_step lu m delta2 na2 nb2 rho2 tol x2 = Ok (x2', b) /\ length x2' = N /\
      (forall k, (k < N)%nat -> rel TR (X' k) (ix x2' k)) /\
      near L (fun z => forall k, (k < N)%nat ->
        (Sum l < N, jac N (fun k l => Dz k l z) (fun k => X k z) k l * (X l z - X' l z))
        = X k z * (1 + Sum l < N, Dz k l z * X l z) - 1).
  Proof.
    intros Lx RX PX. unfold newton_step.
    set (xf := fun z => mk1 N (fun k => X k z)).
    assert (Tx : lrel TR xf x2) by (apply lrel_fun; auto).
    assert (Lf : forall z, length (xf z) = N) by (intros; apply mk1_length).
    assert (Nz : nz m (xf z0)).
    { intros i Hi. unfold xf. destruct (ix_half (fun k => X k z0) i Hi) as [-> ->].
      pose proof (PX i ltac:(lia)). pose proof (PX (m + i)%nat ltac:(lia)). lra. }
    pose proof (tr_grad TR m delta delta2 na nb rho xf na2 nb2 rho2 x2 Td Ta Tb Tr Tx Nz) as Tg.
    pose proof (tr_hess TR m delta delta2 na nb rho xf na2 nb2 rho2 x2 Td Ta Tb Tr Tx Nz) as Th.
    set (g := ca_grad m delta2 na2 nb2 rho2 x2) in *. set (h := ca_hess m delta2 na2 nb2 rho2 x2) in *.
    set (gf := fun z => @ca_grad RNum m (delta z) (na z) (nb z) (rho z) (xf z)) in *.
    set (hf := fun z => @ca_hess RNum m (delta z) (na z) (nb z) (rho z) (xf z)) in *.
    assert (Rg : forall k, rel TR (fun z => @ix RNum (gf z) k) (ix g k)) by (intros k; apply (tr_ix TR); exact Tg).
    assert (Rh : forall k l, rel TR (fun z => @ix2 RNum (hf z) k l) (ix2 h k l)).
    { intros k l. destruct Th as (rows & Er & Fr). unfold ix2.
      assert (A : lrel TR (fun z => nth k (hf z) []) (nth k h [])).
      { assert (A' : lrel TR (fun z => nth k (map (fun r => r z) rows) []) (nth k h [])).
        { clear Er. revert k. clearbody h. clear - Fr. induction Fr as [ | r r2 rs rs2 H F IH]; intros k; destruct k; cbn; auto using (lrel_nil TR). }
        destruct A' as (fs & E & F). exists fs. split; auto. intros z. rewrite Er. exact (E z). }
      exact (tr_ix TR _ _ l A). }
    assert (Sq : square N h) by exact (ca_hess_square m delta2 na2 nb2 rho2 x2).
    assert (Sqf : forall z, square N (hf z)) by (intros z; exact (ca_hess_square (K := RNum) m (delta z) (na z) (nb z) (rho z) (xf z))).
    assert (Nonneg : forall k, (k < N)%nat -> 0 < nth k (xf z0) 0).
    { intros k Hk. unfold xf. rewrite (nth_mk1 N (fun k => X k z0) k 0 Hk). auto. }
    assert (NS : nonsingular N (hf z0)) by exact (hess_nonsingular m (delta z0) (na z0) (nb z0) (rho z0) HD (xf z0) (Lf z0) Nonneg).
    assert (NSl : msing N (fun k l => @ix2 RNum (hf z0) k l)) by exact NS.
    destruct (Hlu N h g Sq (ca_grad_length m delta2 na2 nb2 rho2 x2)) as (d & Ed & Ld & Fd & Sd).
    { intros k l _ _. eapply rel_finite, Rh. }
    { intros k _. eapply rel_finite, Rg. }
    { intros u Hu k Hk. apply (NS u); auto. clear k Hk. intros k Hk. rewrite <- (Hu k Hk). unfold mat_vec. apply Sum_ext. intros l Hl. f_equal.
      destruct Sq as [S1 S2].
      assert (E1 : nth k (map (map (real_part n)) h) [] = map (real_part n) (nth k h [])).
      { etransitivity; [apply (nth_indep _ [] (map (real_part n) [])); rewrite map_length; rewrite S1; exact Hk | apply (map_nth (map (real_part n)))]. }
      symmetry. etransitivity; [exact (f_equal (fun r => @ix RNum r l) E1) | ]. etransitivity; [ | exact (rel_real n _ _ (Rh k l))].
      unfold ix2, ix.
      etransitivity; [apply (nth_indep _ _ (real_part n n0)); rewrite map_length, (S2 (nth k h [])); [exact Hl | apply nth_In; rewrite S1; exact Hk] | ].
      apply (map_nth (real_part n)). }
    rewrite Ed.
    destruct (lin_dual L N (fun k l z => @ix2 RNum (hf z) k l) (fun k z => @ix RNum (gf z) k) (fun k l => ix2 h k l) (ix g) (ix d)) as (U & RU & EU); [intros k l _ _; exact (Rh k l) | intros k _; exact (Rg k) | exact NSl | | exact Sd | ].
    { intros k Hk. apply finite_rel. auto. }
    eexists _, _, (fun k z => X k z - U k z). split; [reflexivity | ]. split; [ | split].
    - rewrite map_length, combine_length, Ld, Lx. apply Nat.min_id.
    - intros k Hk.
      assert (E : ix (map (fun p => nsub (fst p) (snd p)) (combine x2 d)) k = nsub (ix x2 k) (ix d k)).
      { unfold ix. set (f := fun p : car K * car K => nsub (fst p) (snd p)).
        rewrite (nth_indep _ n0 (f (n0, n0))) by (rewrite map_length, combine_length, Ld, Lx, Nat.min_id; exact Hk).
        rewrite (map_nth f), combine_nth by congruence. reflexivity. }
      rewrite E. exact (tr_sub _ _ TR _ _ _ _ (RX k Hk) (RU k Hk)).
    - assert (Nx : near L (fun z => forall k, (k < N)%nat -> X k z <> 0)).
      { apply (near_forall L N (fun k z => X k z <> 0)). intros k Hk. apply reg_nz; [exists (ix x2 k); auto | ]. pose proof (PX k Hk). lra. }
      eapply near_imp; [ | exact (near_and L _ _ Nx EU)]. intros z [A B] k Hk. cbv beta in *.
      rewrite jac_row by auto.
      assert (Ei : forall l, (l < N)%nat -> @ix RNum (xf z) l = X l z) by (intros l Hl; unfold xf; apply (ix_mk1 (K := RNum)); auto).
      pose proof (ca_step_linear (K := RNum) RNum_ring RNum_div m (delta z) (na z) (nb z) (rho z) (xf z) (Lf z) (fun l => U l z) k Hk) as S.
      rewrite (Ei k Hk) in S. unfold ca_F in S. rewrite (Ei k Hk) in S. unfold ca_row in S. rewrite !nsumi_R in S.
      rewrite (Sum_ext N (fun l => Dz k l z * (X l z - (X l z - U l z))) (fun l => Dz k l z * U l z)) by (intros; ring).
      replace (X k z - (X k z - U k z)) with (U k z) by ring.
      assert (Er : (Sum l < N, Dz k l z * X l z) = Sum l < N, Dz k l z * @ix RNum (xf z) l) by (apply Sum_ext; intros l Hl; rewrite (Ei l Hl); reflexivity).
      rewrite Er.
      apply S.
      + apply Rinv_r. auto.
      + exact (B k Hk).
  Qed.

  (* ------------------------------------------------------------ order of accuracy *)
  Variable Y : nat -> P -> R.
  Hypothesis RY : forall k, (k < N)%nat -> reg L (Y k).
  Hypothesis HY : near L (fun z => law N (fun k l => Dz k l z) (fun k => Y k z)).
  Hypothesis PY : forall k, (k < N)%nat -> 0 < Y k z0.

  Theorem dual_step_order (X : nat -> P -> R) x2 j : length x2 = N -> (forall k, (k < N)%nat -> rel TR (X k) (ix x2 k)) ->
    (0 < j)%nat -> (forall k, (k < N)%nat -> flat L j (fun z => X k z - Y k z)) ->
    exists x2' b (X' : nat -> P -> R), newton_step lu m delta2 na2 nb2 rho2 tol x2 = Ok (x2', b) /\ length x2' = N /\
      (forall k, (k < N)%nat -> rel TR (X' k) (ix x2' k)) /\ (forall k, (k < N)%nat -> flat L (j + j) (fun z => X' k z - Y k z)).
  Proof.
    intros Lx RX Hj FX.
    assert (X0 : forall k, (k < N)%nat -> X k z0 = Y k z0).
    { intros k Hk. destruct j as [ | j']; [lia | ]. pose proof (flat_zero_at L j' _ (FX k Hk)) as E. cbv beta in E. lra. }
    assert (PX : forall k, (k < N)%nat -> 0 < X k z0) by (intros k Hk; rewrite X0 by auto; auto).
    destruct (dual_step X x2 Lx RX PX) as (x2' & b & X' & E1 & L' & R' & S). exists x2', b, X'. do 3 (split; auto).
    assert (RX' : forall k, (k < N)%nat -> reg L (X k)) by (intros k Hk; exists (ix x2 k); auto).
    destruct (inverse_regular L N (fun k l z => jac N (fun k l => Dz k l z) (fun k => X k z) k l)) as (G & RG & EG).
    { intros k l Hk Hl. apply (jac_reg L N Dz X); auto. intros; apply Dz_reg; auto. }
    { apply jac_msing; auto. }
    intros k Hk.
    apply (flat_near L (j + j) (fun z => Sum i < N, G k i z * Sum l < N, (Dz i l z * ((X i z - Y i z) * (X l z - Y l z))))).
    - eapply near_imp; [ | exact (near_and L _ _ (near_and L _ _ S HY) EG)]. intros z [[A1 A2] [_ A3]]. cbv beta in *.
      set (D := fun k l => Dz k l z) in *. set (x := fun k => X k z) in *. set (e := fun l => Y l z - X l z).
      assert (J : forall i, (i < N)%nat -> (Sum l < N, jac N D x i l * (X' l z - Y l z)) = Sum l < N, Dz i l z * ((X i z - Y i z) * (X l z - Y l z))).
      { intros i Hi. specialize (A1 i Hi). specialize (A2 i Hi). pose proof (law_shift N D x e i Hi) as Ls.
        assert (T1 : x i + e i = Y i z) by (unfold x, e; ring).
        assert (T2 : (Sum l < N, D i l * (x l + e l)) = Sum l < N, D i l * Y l z) by (apply Sum_ext; intros; unfold x, e; ring).
        rewrite T1, T2 in Ls. fold (D i) in A2. unfold D in A2, Ls. fold D in Ls. rewrite A2 in Ls.
        assert (T3 : (Sum l < N, jac N D x i l * (X' l z - Y l z)) = - (Sum l < N, jac N D x i l * (X l z - X' l z)) - (Sum l < N, jac N D x i l * e l)).
        { rewrite <- rsum_opp, <- rsum_minus. apply Sum_ext. intros. unfold e. ring. }
        assert (T4 : (Sum l < N, Dz i l z * ((X i z - Y i z) * (X l z - Y l z))) = e i * Sum l < N, Dz i l z * e l).
        { rewrite <- rsum_scal. apply Sum_ext. intros. unfold e. ring. }
        rewrite T3, T4, A1. unfold x in *. lra. }
      rewrite (Sum_ext N _ (fun i => Sum l < N, G k i z * jac N D x i l * (X' l z - Y l z))).
      2:{ intros i Hi. rewrite <- (J i Hi), <- rsum_scal. apply Sum_ext. intros; ring. }
      rewrite Sum_swap2. rewrite (Sum_ext N _ (fun l => delta_ k l * (X' l z - Y l z))); [apply (Sum_delta_l N (fun l => X' l z - Y l z)); auto | ].
      intros l Hl. rewrite <- (A3 k l Hk Hl), <- rsum_scal_r. reflexivity.
    - apply (flat_sum L N (j + j) (fun i z => G k i z * Sum l < N, Dz i l z * ((X i z - Y i z) * (X l z - Y l z)))). intros i Hi.
      apply flat_scal; auto. apply (flat_sum L N (j + j) (fun l z => Dz i l z * ((X i z - Y i z) * (X l z - Y l z)))). intros l Hl.
      apply flat_scal; [apply Dz_reg; auto | ]. apply (flat_prod L j j (fun z => X i z - Y i z) (fun z => X l z - Y l z)); auto.
  Qed.

  Theorem dual_steps c : forall (X : nat -> P -> R) x2 j, length x2 = N -> (forall k, (k < N)%nat -> rel TR (X k) (ix x2 k)) ->
    (0 < j)%nat -> (forall k, (k < N)%nat -> flat L j (fun z => X k z - Y k z)) ->
    exists x2' (X' : nat -> P -> R), newton_deriv (newton_step lu m delta2 na2 nb2 rho2 tol) c x2 = Ok x2' /\ length x2' = N /\
      (forall k, (k < N)%nat -> rel TR (X' k) (ix x2' k)) /\ (forall k, (k < N)%nat -> flat L (2 ^ c * j) (fun z => X' k z - Y k z)).
  Proof.
    induction c as [ | c IH]; intros X x2 j Lx RX Hj FX.
    - exists x2, X. cbn [newton_deriv Nat.pow]. rewrite Nat.mul_1_l. auto.
    - destruct (dual_step_order X x2 j Lx RX Hj FX) as (x3 & b & X3 & E & L3 & R3 & F3).
      destruct (IH X3 x3 (j + j)%nat L3 R3 ltac:(lia) F3) as (x4 & X4 & E4 & L4 & R4 & F4).
      exists x4, X4. split; [cbn [newton_deriv]; rewrite E; exact E4 | ]. do 2 (split; auto). intros k Hk.
      replace (2 ^ S c * j)%nat with (2 ^ c * (j + j))%nat by (cbn [Nat.pow]; lia). auto.
  Qed.
End Step.
