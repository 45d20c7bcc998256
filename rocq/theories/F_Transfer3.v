(** Transfer of the cross-association equations: gradient, Hessian and energy. *)
From Coq Require Import ZArith QArith Reals Lra Lia List Bool.
From Verif Require Import Num RNum RSum Tables M_Params F_Params M_Eos Spec F_Spec F_SpecPolar F_SpecAssoc
  F_Contrib F_Cross F_Transfer F_Transfer2.
Import ListNotations.
Local Open Scope R_scope.
Set Bullet Behavior "Strict Subproofs".

Section Cross.
  Context {Pt : Type} {K : Num} {x0 : Pt} (TR : Transfer K x0).
  Notation rl := (rel TR).
  Variable n : nat.
  Variables (delta : Pt -> list (list R)) (delta2 : list (list (car K))).
  Variables (na nb rho x : Pt -> list R) (na2 nb2 rho2 x2 : list (car K)).
  Hypothesis Td : forall i j, (i < n)%nat -> (j < n)%nat -> rl (fun u => @ix2 RNum (delta u) i j) (ix2 delta2 i j).
  Hypothesis Ta : lrel TR na na2.
  Hypothesis Tb : lrel TR nb nb2.
  Hypothesis Tr : lrel TR rho rho2.
  Hypothesis Tx : lrel TR x x2.

  Lemma lrel_firstn k fl l : lrel TR fl l -> lrel TR (fun u => firstn k (fl u)) (firstn k l).
  Proof.
    intros (fs & E & F). exists (firstn k fs). split.
    - intros u. rewrite E. apply firstn_map.
    - clear E. revert k. induction F; intros k; destruct k; cbn; auto.
  Qed.
  Lemma lrel_skipn k fl l : lrel TR fl l -> lrel TR (fun u => skipn k (fl u)) (skipn k l).
  Proof.
    intros (fs & E & F). exists (skipn k fs). split.
    - intros u. rewrite E. apply skipn_map.
    - clear E. revert k. induction F; intros k; destruct k; cbn; auto.
  Qed.
  Lemma tr_dnx m y m2 y2 i : (i < n)%nat -> lrel TR m m2 -> lrel TR y y2 ->
    rl (fun u => @ca_dnx RNum n (delta u) (rho u) (m u) (y u) i) (ca_dnx n delta2 rho2 m2 y2 i).
  Proof.
    intros Hi Hm Hy. unfold ca_dnx. apply (tr_add _ _ TR); [ | tr TR].
    apply (tr_nsumi TR). intros j Hj. pose proof (Td i j Hi Hj). tr TR.
  Qed.

  Definition nz (y : list R) : Prop := forall i, (i < n)%nat ->
    @ix RNum (firstn n y) i <> 0 /\ @ix RNum (skipn n y) i <> 0.
  Definition posv (y : list R) : Prop := forall i, (i < n)%nat ->
    0 < @ix RNum (firstn n y) i /\ 0 < @ix RNum (skipn n y) i.

  Theorem tr_grad : nz (x x0) ->
    lrel TR (fun u => @ca_grad RNum n (delta u) (na u) (nb u) (rho u) (x u)) (ca_grad n delta2 na2 nb2 rho2 x2).
  Proof.
    intros Z. unfold ca_grad. pose proof (lrel_firstn n _ _ Tx) as F. pose proof (lrel_skipn n _ _ Tx) as S.
    apply (lrel_app TR); apply (lrel_mk1 TR); intros i Hi; destruct (Z i Hi); apply (tr_sub _ _ TR).
    - tr TR. auto.
    - apply tr_dnx; auto.
    - tr TR. auto.
    - apply tr_dnx; auto.
  Qed.
  Definition lrel2 (M : Pt -> list (list R)) (M2 : list (list (car K))) : Prop :=
    exists rows : list (Pt -> list R), (forall u, M u = map (fun r => r u) rows) /\ Forall2 (lrel TR) rows M2.
  Lemma lrel2_map (s : list nat) F G : (forall i, In i s -> lrel TR (F i) (G i)) ->
    lrel2 (fun u => map (fun i => F i u) s) (map G s).
  Proof.
    intros H. exists (map F s). split.
    - intros u. rewrite map_map. reflexivity.
    - induction s as [ | i s IH]; cbn; constructor; [apply H; left; auto | apply IH; intros; apply H; right; auto].
  Qed.
  Lemma lrel2_app A B A2 B2 : lrel2 A A2 -> lrel2 B B2 -> lrel2 (fun u => A u ++ B u) (A2 ++ B2).
  Proof.
    intros (r & E & F) (r' & E' & F'). exists (r ++ r'). split.
    - intros u. rewrite map_app, E, E'. auto.
    - apply Forall2_app; auto.
  Qed.
  Theorem tr_hess : nz (x x0) ->
    lrel2 (fun u => @ca_hess RNum n (delta u) (na u) (nb u) (rho u) (x u)) (ca_hess n delta2 na2 nb2 rho2 x2).
  Proof.
    intros Z. unfold ca_hess. cbn zeta. pose proof (lrel_firstn n _ _ Tx) as F. pose proof (lrel_skipn n _ _ Tx) as S.
    apply lrel2_app; apply lrel2_map; intros i Hi; apply in_seq in Hi; assert (Hi' : (i < n)%nat) by lia; destruct (Z i Hi') as [Z1 Z2];
      apply (lrel_app TR); apply (lrel_mk1 TR); intros j Hj.
    - destruct (Nat.eqb i j); [ | apply (tr_n0 TR)].
      apply (tr_div _ _ TR); [apply (tr_opp _ _ TR); apply tr_dnx; auto | apply (tr_ix TR); auto | auto].
    - pose proof (Td i j Hi' Hj). tr TR.
    - pose proof (Td i j Hi' Hj). tr TR.
    - destruct (Nat.eqb i j); [ | apply (tr_n0 TR)].
      apply (tr_div _ _ TR); [apply (tr_opp _ _ TR); apply tr_dnx; auto | apply (tr_ix TR); auto | auto].
  Qed.
  Theorem tr_energy : posv (x x0) ->
    rl (fun u => @ca_energy RNum n (na u) (nb u) (rho u) (x u)) (ca_energy n na2 nb2 rho2 x2).
  Proof.
    intros Z. unfold ca_energy. pose proof (lrel_firstn n _ _ Tx) as F. pose proof (lrel_skipn n _ _ Tx) as S.
    apply (tr_nsumi TR). intros i Hi. destruct (Z i Hi).
    apply (tr_mul _ _ TR); [tr TR | ]. apply (tr_add _ _ TR); apply (tr_mul _ _ TR); try (tr TR; fail).
    - apply (tr_f_assoc TR (fun u => @ix RNum (firstn n (x u)) i)); [apply (tr_ix TR); auto | auto].
    - apply (tr_f_assoc TR (fun u => @ix RNum (skipn n (x u)) i)); [apply (tr_ix TR); auto | auto].
  Qed.
End Cross.
