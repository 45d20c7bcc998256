(** Dependence of nested dual numbers on a real start vector.

    [cont] is a level (F_Level.v) whose parameter is a vector of N real numbers near [w0] and whose
    regular functions are the functions continuous at [w0].  Nesting dual numbers on top of it gives
    functions of (z, w), z in R^n, whose partial derivatives in z at 0 exist for all w near [w0] and
    are continuous in w at [w0]. *)
From Coq Require Import ZArith QArith Reals Lra Lia String List Bool.
From Coquelicot Require Import Coquelicot.
From Verif Require Import Num RNum RSum Tables M_Params F_Params M_Eos F_Transfer XNum F_Transfer2 F_Transfer3 DNum F_Level
  F_Linear F_Implicit P_Dual P_Dual2 F_DualNewton.
Import ListNotations.
Local Open Scope R_scope.
Set Bullet Behavior "Strict Subproofs".
Notation length := List.length.

Section Cont.
  Variables (N : nat) (w0 : nat -> R).
  Notation W := (nat -> R).
  Definition nbh (Q : W -> Prop) : Prop := exists d, 0 < d /\ forall w, (forall k, (k < N)%nat -> Rabs (w k - w0 k) < d) -> Q w.
  Definition ctn (f : W -> R) : Prop := forall eps, 0 < eps -> nbh (fun w => Rabs (f w - f w0) < eps).
  Lemma nbh_and P Q : nbh P -> nbh Q -> nbh (fun w => P w /\ Q w).
  Proof.
    intros (d & Hd & A) (e & He & B). exists (Rmin d e). split; [apply Rmin_pos; auto | ].
    intros w Hw. split; [apply A | apply B]; intros k Hk; specialize (Hw k Hk); [pose proof (Rmin_l d e) | pose proof (Rmin_r d e)]; lra.
  Qed.
  Lemma nbh_imp (P Q : W -> Prop) : (forall w, P w -> Q w) -> nbh P -> nbh Q.
  Proof. intros H (d & Hd & A). exists d. auto. Qed.
  Lemma nbh_true : nbh (fun _ => True).
  Proof. exists 1. split; [lra | auto]. Qed.
  Lemma nbh_z P : nbh P -> P w0.
  Proof. intros (d & Hd & A). apply A. intros k _. rewrite Rminus_diag_eq, Rabs_R0 by auto. auto. Qed.
  Lemma ctn_lim f : ctn f <-> filterlim f nbh (locally (f w0)).
  Proof.
    split.
    - intros H P (e & He). destruct (H e (cond_pos e)) as (d & Hd & A). exists d. split; auto. intros w Hw. apply He. exact (A w Hw).
    - intros H eps He. exact (H _ (locally_ball (f w0) (mkposreal eps He))).
  Qed.
  Global Instance nbh_filter : Filter nbh.
  Proof. constructor; [exact nbh_true | exact nbh_and | exact nbh_imp]. Qed.
  Lemma ctn_comp (phi : R -> R) f : ctn f -> continuous phi (f w0) -> ctn (fun w => phi (f w)).
  Proof. intros H C. apply ctn_lim. apply ctn_lim in H. exact (filterlim_comp _ _ _ f phi nbh _ _ H C). Qed.
  Lemma ctn_const c : ctn (fun _ => c).
  Proof. intros eps He. exists 1. split; [lra | ]. intros w _. rewrite Rminus_diag_eq, Rabs_R0; auto. Qed.
  Lemma ctn_plus f g : ctn f -> ctn g -> ctn (fun w => f w + g w).
  Proof.
    rewrite !ctn_lim. intros A B. exact (filterlim_comp_2 f g Rplus A B (filterlim_plus (V := R_NormedModule) (f w0) (g w0))).
  Qed.
  Lemma ctn_mult f g : ctn f -> ctn g -> ctn (fun w => f w * g w).
  Proof.
    rewrite !ctn_lim. intros A B. exact (filterlim_comp_2 f g Rmult A B (filterlim_mult (K := R_AbsRing) (f w0) (g w0))).
  Qed.
  Lemma ctn_opp f : ctn f -> ctn (fun w => - f w).
  Proof. intros H. apply (ctn_comp Ropp); auto. apply (filterlim_opp (V := R_NormedModule)). Qed.
  Lemma ctn_inv f : ctn f -> f w0 <> 0 -> ctn (fun w => / f w).
  Proof. intros H Hn. apply (ctn_comp Rinv); auto. apply continuous_Rinv; auto. Qed.
  Lemma ctn_near f g : nbh (fun w => f w = g w) -> ctn f -> ctn g.
  Proof.
    intros E H eps He. pose proof (nbh_z _ E) as E0. cbv beta in E0. eapply nbh_imp; [ | exact (nbh_and _ _ E (H eps He))].
    intros w [E1 A]. cbv beta in *. rewrite <- E1, <- E0. auto.
  Qed.
  Lemma ctn_gt f c : ctn f -> c < f w0 -> nbh (fun w => c < f w).
  Proof. intros H Hc. eapply nbh_imp; [ | exact (H (f w0 - c) ltac:(lra))]. intros w A. cbv beta in A. apply Rabs_def2 in A. lra. Qed.
  Lemma ctn_lt f c : ctn f -> f w0 < c -> nbh (fun w => f w < c).
  Proof. intros H Hc. eapply nbh_imp; [ | exact (H (c - f w0) ltac:(lra))]. intros w A. cbv beta in A. apply Rabs_def2 in A. lra. Qed.
  Lemma ctn_coord k : (k < N)%nat -> ctn (fun w => w k).
  Proof. intros Hk eps He. exists eps. split; auto. Qed.

  Definition crel (f : W -> R) (a : xr) : Prop := a = Fin (f w0) /\ ctn f.
  Notation XT := (XTransfer w0).
  Ltac both := let A := fresh "A" in let B := fresh "B" in intros; repeat match goal with H : crel _ _ |- _ => destruct H as [A B] end; split.
  Lemma smooth_ctn (phi : R -> R) x : ex_derive phi x -> continuous phi x.
  Proof. apply (ex_derive_continuous phi). Qed.
  Definition CTransfer : Transfer XNum w0.
  Proof.
    refine (mkTransfer _ XNum w0 crel Fin (fun f g => f w0 <> g w0)
      (fun f g => nbh (fun w => Rltb (f w) (g w) = Rltb (f w0) (g w0))) _ _ _ _ _ _ _ _ _ _ _ _ _ _ _ _ _ _ _ _).
    - intros r. split; [reflexivity | apply ctn_const].
    - intros q. split; [reflexivity | apply ctn_const].
    - split; [reflexivity | apply ctn_const].
    - intros f g a b [A1 B1] [A2 B2]. split; [exact (tr_add _ _ XT _ _ _ _ A1 A2) | apply ctn_plus; auto].
    - intros f g a b [A1 B1] [A2 B2]. split; [exact (tr_sub _ _ XT _ _ _ _ A1 A2) | apply (ctn_plus f (fun w => - g w)); auto; apply ctn_opp; auto].
    - intros f g a b [A1 B1] [A2 B2]. split; [exact (tr_mul _ _ XT _ _ _ _ A1 A2) | apply ctn_mult; auto].
    - intros f a [A1 B1]. split; [exact (tr_opp _ _ XT _ _ A1) | apply ctn_opp; auto].
    - intros f g a b [A1 B1] [A2 B2] Hn. split; [exact (tr_div _ _ XT _ _ _ _ A1 A2 Hn) | apply (ctn_mult f (fun w => / g w)); auto; apply ctn_inv; auto].
    - intros f a [A1 B1] Hn. split; [exact (tr_recip _ _ XT _ _ A1 Hn) | apply ctn_inv; auto].
    - intros f a n [A1 B1]. split; [exact (tr_powi _ _ XT _ _ n A1) | ]. apply (ctn_comp (fun x => x ^ n) f B1).
      apply smooth_ctn. auto_derive. auto.
    - intros f a [A1 B1]. split; [exact (tr_exp _ _ XT _ _ A1) | ]. apply (ctn_comp exp f B1). apply smooth_ctn. auto_derive. auto.
    - intros f a [A1 B1]. split; [exact (tr_expm1 _ _ XT _ _ A1) | ]. apply (ctn_comp (fun x => exp x - 1) f B1). apply smooth_ctn. auto_derive. auto.
    - intros f a [A1 B1] Hp. split; [exact (tr_ln _ _ XT _ _ A1 Hp) | ]. apply (ctn_comp ln f B1). apply smooth_ctn. auto_derive. auto.
    - intros f a [A1 B1] Hp. split; [exact (tr_ln1p _ _ XT _ _ A1 Hp) | ]. apply (ctn_comp (fun x => ln (1 + x)) f B1). apply smooth_ctn. auto_derive. auto.
    - intros f a [A1 B1] Hp. split; [exact (tr_sqrt _ _ XT _ _ A1 Hp) | ]. apply (ctn_comp sqrt f B1). apply smooth_ctn. auto_derive. auto.
    - intros f a [A1 B1] Hp. split; [exact (tr_cbrt _ _ XT _ _ A1 Hp) | ]. apply (ctn_comp Rcbrt f B1). apply smooth_ctn. eexists. apply Rcbrt_derive; auto.
    - intros r q a b [A1 B1] [A2 B2]. split; [exact (tr_min _ _ XT _ _ _ _ A1 A2) | apply ctn_const].
    - intros f g a b [A1 B1] [A2 B2]. exact (tr_ltb _ _ XT _ _ _ _ A1 A2).
    - intros f g u v c B H. assert (E : nbh (fun w => (if @nltb RNum (f w0) (g w0) then u else v) w = if @nltb RNum (f w) (g w) then u w else v w)).
      { eapply nbh_imp; [ | exact B]. intros w E. cbv beta in *. change (@nltb RNum) with Rltb. rewrite E. destruct (Rltb (f w0) (g w0)); reflexivity. }
      destruct H as [A C]. split; [ | exact (ctn_near _ _ E C)]. rewrite A. f_equal. exact (nbh_z _ E).
    - intros f g h a b c [A1 B1] [A2 B2] [A3 B3] Hn. split; [exact (tr_pade _ _ XT _ _ _ _ _ _ A1 A2 A3 (or_introl Hn)) | ].
      unfold pade. cbn [nisnan RNum]. rn. apply (ctn_mult (fun x => f x * f x / (f x - g x)) h); auto.
      apply (ctn_mult (fun x => f x * f x) (fun x => / (f x - g x))); [apply ctn_mult; auto | ].
      apply (ctn_inv (fun x => f x - g x)); [ | lra]. apply (ctn_plus f (fun w => - g w)); auto. apply ctn_opp; auto.
  Defined.

  Definition cont : level.
  Proof.
    refine (mkLevel W w0 nbh XNum CTransfer nbh_and nbh_imp nbh_true nbh_z _ _ _ _ _ _).
    - intros f g a E [A B]. split; [ | exact (ctn_near _ _ E B)]. rewrite A. f_equal. exact (nbh_z _ E).
    - intros f a c [A B]. exact (ctn_gt f c B).
    - intros f a c [A B]. exact (ctn_lt f c B).
    - intros f a [-> B]. reflexivity.
    - intros f a b [-> _] [-> _]. reflexivity.
    - intros f g h a b c [-> _] [-> _] [-> _] E1 E2. rewrite E1, E2. cbn.
      destruct (Req_EM_T (0 + - 0) 0); [ | lra]. rewrite Rmult_0_l, sgn_inf_0. reflexivity.
  Defined.

  Fixpoint dualc (n : nat) : level := match n with O => cont | S k => next (dualc k) end.
  Fixpoint join (n : nat) : pt n -> W -> lP (dualc n) :=
    match n with O => fun _ w => w | S k => fun z w => (fst z, join k (snd z) w) end.
  Lemma join_base n : join n (lz (dual n)) w0 = lz (dualc n).
  Proof. induction n as [ | n IH]; auto. cbn. unfold z'. f_equal. exact IH. Qed.
  Lemma near_join n Q : near (dualc n) Q -> nbh (fun w => near (dual n) (fun z => Q (join n z w))).
  Proof.
    revert Q. induction n as [ | n IH]; intros Q H; [exact H | ].
    change (near (dualc n) (fun y => locally 0 (fun x => Q (x, y)))) in H. apply IH in H. eapply nbh_imp; [ | exact H]. intros w A. exact A.
  Qed.
  (** partial derivatives in z, continuous in w *)
  Theorem rel_join n : forall f a s, rel (lT (dualc n)) f a -> length s = n ->
    exists g, nbh (fun w => partial n s (fun z => f (join n z w)) (g w)) /\ ctn g.
  Proof.
    induction n as [ | n IH]; intros f a s H Hs.
    - exists f. split; [apply (nbh_imp (fun _ => True)); [intros w _; reflexivity | exact nbh_true] | exact (proj2 H)].
    - destruct s as [ | b s]; [discriminate | ]. cbn [List.length] in Hs. destruct H as (A & h & B & C). destruct b.
      + destruct (IH h (snd a) s B ltac:(lia)) as (g & Pg & Cg). exists g. split; auto.
        eapply nbh_imp; [ | exact (nbh_and _ _ Pg (near_join n _ C))]. intros w [D1 D2]. cbn [partial hd tl].
        exists (fun z => h (join n z w)). split; auto.
      + destruct (IH _ (fst a) s A ltac:(lia)) as (g & Pg & Cg). exists g. split; auto.
  Qed.
  (** functions of z alone and of w alone *)
  Fixpoint zpart (n : nat) : lP (dualc n) -> pt n :=
    match n with O => fun _ => tt | S k => fun q => (fst q, zpart k (snd q)) end.
  Fixpoint wpart (n : nat) : lP (dualc n) -> W := match n with O => fun w => w | S k => fun q => wpart k (snd q) end.
  Lemma zpart_join n z w : zpart n (join n z w) = z.
  Proof. induction n as [ | n IH]; [destruct z; reflexivity | ]. destruct z as [x z]. cbn. f_equal. apply IH. Qed.
  Lemma wpart_join n z w : wpart n (join n z w) = w.
  Proof. induction n as [ | n IH]; auto. exact (IH (snd z)). Qed.
  Lemma zpart_base n : zpart n (lz (dualc n)) = lz (dual n).
  Proof. rewrite <- join_base. apply zpart_join. Qed.
  Lemma wpart_base n : wpart n (lz (dualc n)) = w0.
  Proof. rewrite <- join_base. apply wpart_join. Qed.
  Lemma near_zpart n Q : near (dual n) Q -> near (dualc n) (fun q => Q (zpart n q)).
  Proof.
    revert Q. induction n as [ | n IH]; intros Q H.
    - apply (nbh_imp (fun _ => True)); [intros w _; exact H | exact nbh_true].
    - exact (IH (fun y => locally 0 (fun x => Q (x, y))) H).
  Qed.
  Lemma reg_zpart n : forall f, reg (dual n) f -> reg (dualc n) (fun q => f (zpart n q)).
  Proof.
    induction n as [ | n IH]; intros f (a & H).
    - exists (Fin (f tt)). split; [reflexivity | apply (ctn_const (f tt))].
    - destruct H as (A & h & B & C). destruct (IH _ (ex_intro _ _ A)) as (a1 & R1). destruct (IH h (ex_intro _ _ B)) as (a2 & R2).
      exists (a1, a2). split; [exact R1 | ]. exists (fun q => h (zpart n q)). split; [exact R2 | ]. exact (near_zpart n _ C).
  Qed.
  Lemma reg_wpart n k : (k < N)%nat -> reg (dualc n) (fun q => wpart n q k).
  Proof.
    intros Hk. induction n as [ | n IH].
    - exists (Fin (w0 k)). split; [reflexivity | apply ctn_coord; auto].
    - destruct IH as (a & R1). exists (a, n0). split; [exact R1 | ]. exists (fun _ => 0). split.
      + exact (tr_n0 (lT (dualc n))).
      + apply near_all. intros y. apply (is_derive_const (wpart n y k) 0).
  Qed.
End Cont.
