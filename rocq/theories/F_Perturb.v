(** Newton steps with nested dual numbers from a real start vector close to the exact site
    fractions: the result depends continuously on the start vector. *)
From Coq Require Import ZArith QArith Reals Lra Lia String List Bool.
From Coquelicot Require Import Coquelicot.
From Verif Require Import Num RNum RSum Tables M_Params F_Params M_Eos F_Newton F_Gauss F_MassAction F_MassAction2 F_NewtonR
  F_Transfer XNum F_Transfer2 F_Transfer3 DNum F_Level F_Linear F_Implicit P_Dual P_Dual2 F_DualNewton F_Cont.
Import ListNotations.
Local Open Scope R_scope.
Set Bullet Behavior "Strict Subproofs".
Notation length := List.length.

Lemma partial_unique n s f r r' : partial n s f r -> partial n s f r' -> r = r'.
Proof.
  revert s f. induction n as [ | n IH]; intros s f H H'; cbn [partial] in *; [congruence | ].
  destruct (hd false s); [ | exact (IH _ _ H H')].
  destruct H as (g & A & B). destruct H' as (g' & A' & B'). apply (IH (tl s) g B).
  eapply partial_near; [ | exact B']. eapply near_imp; [ | exact (near_and (dual n) _ _ A A')]. intros y [D D'].
  apply is_derive_unique in D, D'. cbv beta. congruence.
Qed.
Lemma nbh_words N w0 n (Q : list bool -> (nat -> R) -> Prop) : (forall s, length s = n -> nbh N w0 (Q s)) ->
  nbh N w0 (fun w => forall s, length s = n -> Q s w).
Proof.
  revert Q. induction n as [ | n IH]; intros Q H.
  - eapply nbh_imp; [ | exact (H [] eq_refl)]. intros w A s Hs. destruct s; [exact A | discriminate].
  - pose proof (IH (fun s => Q (true :: s)) (fun s Hs => H (true :: s) (f_equal S Hs))) as A.
    pose proof (IH (fun s => Q (false :: s)) (fun s Hs => H (false :: s) (f_equal S Hs))) as B.
    eapply nbh_imp; [ | exact (nbh_and N w0 _ _ A B)]. intros w [C D] s Hs. destruct s as [ | [ | ] s]; [discriminate | | ]; cbn in Hs; auto.
Qed.
Lemma nbh_forall N w0 n (Q : nat -> (nat -> R) -> Prop) : (forall k, (k < n)%nat -> nbh N w0 (Q k)) ->
  nbh N w0 (fun w => forall k, (k < n)%nat -> Q k w).
Proof. exact (near_forall (cont N w0) n Q). Qed.

Section Perturb.
  Variables (n m : nat).
  Notation L := (dual n). Notation TR := (TRn n). Notation K := (lK (dual n)). Notation P := (pt n). Notation z0 := (lz (dual n)).
  Notation N := (m + m)%nat. Notation E := (emb (TRn n)).
  Variables (delta : P -> list (list R)) (delta2 : list (list (dnum n))).
  Variables (na nb rho : P -> list R) (na2 nb2 rho2 : list (dnum n)).
  Hypothesis Td : forall i j, (i < m)%nat -> (j < m)%nat -> rel TR (fun u => @ix2 RNum (delta u) i j) (ix2 delta2 i j).
  Hypothesis Ta : lrel TR na na2.
  Hypothesis Tb : lrel TR nb nb2.
  Hypothesis Tr : lrel TR rho rho2.
  Variables (lu : lu_solver K) (tol : car K).
  Hypothesis Hlu : lu_dual n lu.
  Notation D := (Dz n m delta na nb rho).
  Hypothesis HD : forall k l, (k < N)%nat -> (l < N)%nat -> 0 <= D k l z0.
  (** exact solution at the base point *)
  Variable w0 : nat -> R.
  Hypothesis Hlaw : law N (fun k l => D k l z0) w0.
  Hypothesis Hpos : forall k, (k < N)%nat -> 0 < w0 k.
  Notation LC := (dualc N w0 n). Notation J := (join N w0 n). Notation Z := (zpart N w0 n). Notation nb_ := (nbh N w0).
  Notation step := (newton_step lu m delta2 na2 nb2 rho2 tol).

  Lemma DC_reg k l : (k < N)%nat -> (l < N)%nat -> reg LC (fun q => D k l (Z q)).
  Proof. intros Hk Hl. apply (reg_zpart N w0 n (D k l)). exact (Dz_reg n m delta delta2 na nb rho na2 nb2 rho2 Td Ta Tb Tr k l Hk Hl). Qed.

  Theorem cont_steps c : forall X : nat -> lP LC -> R, (forall k, (k < N)%nat -> reg LC (X k)) ->
    (forall k, (k < N)%nat -> X k (lz LC) = w0 k) ->
    exists X' : nat -> lP LC -> R, (forall k, (k < N)%nat -> reg LC (X' k)) /\ (forall k, (k < N)%nat -> X' k (lz LC) = w0 k) /\
      nb_ (fun w => forall x2, length x2 = N -> (forall k, (k < N)%nat -> rel TR (fun z => X k (J z w)) (ix x2 k)) ->
        exists xc, newton_deriv step c x2 = Ok xc /\ length xc = N /\ forall k, (k < N)%nat -> rel TR (fun z => X' k (J z w)) (ix xc k)).
  Proof.
    induction c as [ | c IH]; intros X RX X0.
    - exists X. do 2 (split; auto). eapply nbh_imp; [ | apply nbh_true]. intros w _ x2 L2 R2. exists x2. auto.
    - set (Hq := fun k l q => jac N (fun k l => D k l (Z q)) (fun k => X k q) k l).
      assert (RH : forall k l, (k < N)%nat -> (l < N)%nat -> reg LC (Hq k l)).
      { intros k l Hk Hl. apply (jac_reg LC N (fun k l q => D k l (Z q)) X); auto. intros; apply DC_reg; auto. }
      assert (M : msing N (fun k l => Hq k l (lz LC))).
      { apply (jac_msing m); [ | intros k Hk; rewrite X0 by auto; auto]. intros k l Hk Hl. rewrite (zpart_base N w0 n). auto. }
      set (b := fun k q => X k q * (1 + Sum l < N, D k l (Z q) * X l q) - 1).
      assert (Rb : forall k, (k < N)%nat -> reg LC (b k)).
      { intros k Hk. apply (reg_sub LC (fun q => X k q * (1 + Sum l < N, D k l (Z q) * X l q)) (fun _ => 1)); [ | apply reg_const].
        apply (reg_mul LC (X k)); auto. apply (reg_add LC (fun _ => 1)); [apply reg_const | ].
        apply (reg_sum LC N (fun l q => D k l (Z q) * X l q)). intros l Hl. apply reg_mul; auto. apply DC_reg; auto. }
      destruct (linear_regular LC N Hq RH M) as [Ms Sv]. destruct (Sv b Rb) as (U & RU & EU).
      set (X1 := fun k q => X k q - U k q).
      assert (R1 : forall k, (k < N)%nat -> reg LC (X1 k)) by (intros k Hk; apply (reg_sub LC (X k) (U k)); auto).
      assert (X10 : forall k, (k < N)%nat -> X1 k (lz LC) = w0 k).
      { intros k Hk. unfold X1. rewrite X0 by auto.
        assert (U0 : forall k, (k < N)%nat -> U k (lz LC) = 0).
        { apply M. intros l Hl. etransitivity; [exact (near_z LC _ EU l Hl) | ]. unfold b. rewrite X0, (zpart_base N w0 n) by auto.
          pose proof (Hlaw l Hl) as A. rewrite (Sum_ext N _ (fun i => D l i z0 * w0 i)) by (intros i Hi; rewrite X0; auto). lra. }
        rewrite U0 by auto. ring. }
      destruct (IH X1 R1 X10) as (X' & R' & X0' & NX). exists X'. do 2 (split; auto).
      assert (Px : near LC (fun q => forall k, (k < N)%nat -> 0 < X k q)).
      { apply (near_forall LC N (fun k q => 0 < X k q)). intros k Hk. destruct (RX k Hk) as (a & Ra). apply (rel_gt LC _ _ 0 Ra). rewrite X0 by auto. auto. }
      eapply nbh_imp; [ | exact (nbh_and N w0 _ _ NX (near_join N w0 n _ (near_and LC _ _ (near_and LC _ _ Px Ms) EU)))].
      intros w [A B] x2 L2 R2. cbv beta in A, B.
      destruct (dual_step n m delta delta2 na nb rho na2 nb2 rho2 Td Ta Tb Tr lu tol Hlu HD (fun k z => X k (J z w)) x2 L2 R2) as (x3 & b3 & X3 & E3 & L3 & R3 & S3).
      { intros k Hk. apply (near_z L) in B. cbv beta in B. apply (proj1 (proj1 B)); auto. }
      destruct (A x3 L3) as (xc & Ec & Lc & Rc).
      { intros k Hk. eapply (rel_near L); [ | exact (R3 k Hk)]. eapply near_imp; [ | exact (near_and L _ _ S3 B)].
        intros z [S [[_ Ns] Es]]. cbv beta in *. unfold X1.
        assert (Zr : forall l, (l < N)%nat -> X l (J z w) - X3 l z - U l (J z w) = 0).
        { apply Ns. intros l Hl. rewrite (Sum_ext N _ (fun i => Hq l i (J z w) * (X i (J z w) - X3 i z) - Hq l i (J z w) * U i (J z w))) by (intros; ring).
          rewrite rsum_minus, (Es l Hl). unfold b, Hq. rewrite (zpart_join N w0 n). rewrite (S l Hl). ring. }
        specialize (Zr k Hk). lra. }
      exists xc. split; [cbn [newton_deriv]; rewrite E3; exact Ec | auto].
  Qed.

  Lemma lrel_zpart fl l : lrel TR fl l -> exists l', lrel (lT LC) (fun q => fl (Z q)) l'.
  Proof.
    intros (fs & Ef & F). assert (G : exists l', Forall2 (rel (lT LC)) (map (fun f q => f (Z q)) fs) l').
    { clear Ef. induction F as [ | f a fs l H F IH].
      - exists []. constructor.
      - destruct IH as (l' & F'). destruct (reg_zpart N w0 n f (ex_intro _ a H)) as (a' & R'). exists (a' :: l'). cbn [map]. constructor; auto. }
    destruct G as (l' & F'). exists l', (map (fun f q => f (Z q)) fs). split; auto. intros q. rewrite map_map. apply Ef.
  Qed.

  (** all coefficients of the energy after c steps, as functions of the start vector *)
  Variables (vol : P -> R) (vol2 : dnum n).
  Hypothesis Tv : rel TR vol vol2.
  Notation energy x := (nmul (ca_energy m na2 nb2 rho2 x) vol2).
  Theorem cont_energy c eps : 0 < eps -> exists d, 0 < d /\ forall w : list R, length w = N ->
    (forall k, (k < N)%nat -> Rabs (nth k w 0 - w0 k) < d) ->
    exists xw x0, newton_deriv step c (map E w) = Ok xw /\ newton_deriv step c (map E (mk1 N w0)) = Ok x0 /\
      forall s, length s = n -> exists r r0, coef n s (energy xw) = Fin r /\ coef n s (energy x0) = Fin r0 /\
        Rabs (r - r0) < eps.
  Proof.
    intros He.
    destruct (cont_steps c (fun k q => wpart N w0 n q k)) as (X & RX & X0 & NX).
    { intros k Hk. apply (reg_wpart N w0 n k Hk). }
    { intros k Hk. rewrite (wpart_base N w0 n). reflexivity. }
    assert (Px : near LC (fun q => forall k, (k < N)%nat -> 0 < X k q)).
    { apply (near_forall LC N (fun k q => 0 < X k q)). intros k Hk. destruct (RX k Hk) as (a & Ra). apply (rel_gt LC _ _ 0 Ra). rewrite X0 by auto. auto. }
    destruct (lrel_zpart _ _ Ta) as (na3 & Ta3). destruct (lrel_zpart _ _ Tb) as (nb3 & Tb3). destruct (lrel_zpart _ _ Tr) as (rho3 & Tr3).
    destruct (fin_choice n0 N (fun k a => rel (lT LC) (X k) a) RX) as (x3 & Rx3).
    set (en := fun q => @ca_energy RNum m (na (Z q)) (nb (Z q)) (rho (Z q)) (mk1 N (fun k => X k q)) * vol (Z q)).
    destruct (reg_zpart N w0 n vol (ex_intro _ vol2 Tv)) as (v3 & Tv3).
    assert (Ren : exists a, rel (lT LC) en a).
    { eexists. refine (tr_mul _ _ (lT LC) _ _ _ _ _ Tv3). apply (tr_energy (lT LC) m (fun q => na (Z q)) (fun q => nb (Z q)) (fun q => rho (Z q)) (fun q => mk1 N (fun k => X k q)) na3 nb3 rho3 (mk1 N x3) Ta3 Tb3 Tr3).
      - apply (lrel_mk1 (lT LC) N X x3). auto.
      - intros i Hi. destruct (ix_half m (fun k => X k (lz LC)) i Hi) as [-> ->]. rewrite !X0 by lia. split; apply Hpos; lia. }
    destruct Ren as (ae & Rae).
    assert (Run : nb_ (fun w => exists xw, newton_deriv step c (map E (mk1 N w)) = Ok xw /\ rel TR (fun z => en (J z w)) (energy xw))).
    { eapply nbh_imp; [ | exact (nbh_and N w0 _ _ NX (near_join N w0 n _ Px))]. intros w [A B]. cbv beta in A, B.
      destruct (A (map E (mk1 N w))) as (xw & Ew & Lw & Rw).
      - rewrite map_length. apply mk1_length.
      - intros k Hk. assert (Ei : ix (map E (mk1 N w)) k = E (w k)).
        { unfold mk1. rewrite map_map. exact (ix_mk1 (K := K) N (fun i => E (w i)) k Hk). }
        rewrite Ei. eapply (rel_eq TR); [ | exact (tr_emb _ _ TR (w k))]. intros z. rewrite (wpart_join N w0 n). reflexivity.
      - exists xw. split; auto. unfold en.
        eapply (rel_eq TR (fun z => @ca_energy RNum m (na z) (nb z) (rho z) (mk1 N (fun k => X k (J z w))) * vol z)).
        { intros z. rewrite (zpart_join N w0 n). reflexivity. }
        refine (tr_mul _ _ TR _ _ _ _ _ Tv). apply (tr_energy TR m na nb rho (fun z => mk1 N (fun k => X k (J z w))) na2 nb2 rho2 xw Ta Tb Tr).
        + apply lrel_fun; auto.
        + intros i Hi. destruct (ix_half m (fun k => X k (J z0 w)) i Hi) as [-> ->]. apply (near_z L) in B. cbv beta in B. split; apply B; lia. }
    pose proof (nbh_z N w0 _ Run) as (x0 & E0 & R0).
    assert (All : nb_ (fun w => forall s, length s = n -> exists xw r r0, newton_deriv step c (map E (mk1 N w)) = Ok xw /\
      coef n s (energy xw) = Fin r /\ coef n s (energy x0) = Fin r0 /\ Rabs (r - r0) < eps)).
    { apply nbh_words. intros s Hs. destruct (rel_join N w0 n en ae s Rae Hs) as (g & Pg & Cg).
      assert (G0 : coef n s (energy x0) = Fin (g w0)).
      { destruct (rel_represents n _ _ R0 s Hs) as (r & Er & Pr). rewrite Er. f_equal. exact (partial_unique n s _ _ _ Pr (nbh_z N w0 _ Pg)). }
      eapply nbh_imp; [ | exact (nbh_and N w0 _ _ (nbh_and N w0 _ _ Run Pg) (Cg eps He))].
      intros w [[(xw & Ew & Rw) P] C]. cbv beta in *. exists xw, (g w), (g w0). split; auto. split; [ | split; auto].
      destruct (rel_represents n _ _ Rw s Hs) as (r & Er & Pr). rewrite Er. f_equal. exact (partial_unique n s _ _ _ Pr P). }
    destruct (nbh_and N w0 _ _ Run All) as (d & Hd & A). exists d. split; auto. intros w Lw Hw.
    destruct (A (fun k => nth k w 0) Hw) as ((xw & Ew & _) & B).
    assert (Em : mk1 N (fun k => nth k w 0) = w).
    { apply (nth_ext _ _ 0 0); [rewrite mk1_length; auto | ]. intros i Hi. rewrite mk1_length in Hi. exact (nth_mk1 N (fun k => nth k w 0) i 0 Hi). }
    rewrite Em in *. exists xw, x0. do 2 (split; auto). intros s Hs. destruct (B s Hs) as (xw' & r & r0 & Ew' & B1 & B2 & B3).
    assert (xw' = xw) by congruence. subst xw'. exists r, r0. auto.
  Qed.
End Perturb.
