(** Gaussian elimination over nested dual numbers (pivots chosen by their real part) meets the
    specification [lu_dual] of the linear solver, so theorems assuming it are not vacuous. *)
From Coq Require Import ZArith QArith Reals Lra Lia String List Bool.
From Coquelicot Require Import Coquelicot.
From Verif Require Import Num RNum RSum Tables M_Params M_Eos F_Newton F_Gauss
  F_Transfer XNum F_Transfer2 F_Transfer3 DNum F_Level F_Linear F_Implicit P_Dual P_Dual2 F_DualNewton.
Import ListNotations.
Local Open Scope R_scope.
Set Bullet Behavior "Strict Subproofs".
Notation length := List.length.

Section Generic.
  Variable K : Num.
  Notation T := (car K).
  Definition pivotable (a : T) : bool := nltb n0 a || nltb a n0.
  Fixpoint first_pivot (m : nat) (h : nat -> T) : option nat :=
    match m with
    | O => None
    | S m => match first_pivot m h with Some i => Some i | None => if pivotable (h m) then Some m else None end
    end.
  Fixpoint gaussK (N : nat) (h : nat -> nat -> T) (g : nat -> T) : option (nat -> T) :=
    match N with
    | O => Some (fun _ => n0)
    | S n =>
        match first_pivot (S n) (fun i => h i O) with
        | None => None
        | Some i =>
            let c k := ndiv (h (skip i k) O) (h i O) in
            match gaussK n (fun k l => nsub (h (skip i k) (S l)) (nmul (c k) (h i (S l)))) (fun k => nsub (g (skip i k)) (nmul (c k) (g i))) with
            | None => None
            | Some u => Some (fun l => match l with O => ndiv (nsub (g i) (nsumi n (fun l => nmul (h i (S l)) (u l)))) (h i O) | S l => u l end)
            end
        end
    end.
  Definition gaussK_lu : lu_solver K := fun h g =>
    match gaussK (length g) (ix2 h) (ix g) with Some u => Some (mk1 (length g) u) | None => None end.
End Generic.

Section Level.
  Variable L : level.
  Notation K := (lK L). Notation TR := (lT L). Notation z0 := (lz L).
  Lemma pivotable_rel f a : rel TR f a -> pivotable K a = true <-> f z0 <> 0.
  Proof.
    intros H. unfold pivotable. rewrite orb_true_iff, (tr_ltb _ _ TR _ _ _ _ (tr_n0 TR) H), (tr_ltb _ _ TR _ _ _ _ H (tr_n0 TR)).
    change (@nltb RNum) with Rltb. rewrite !Rltb_true. change (@n0 RNum) with (@nlit RNum 0%Q). cbn. unfold Rlit. cbn. lra.
  Qed.
  Lemma first_pivot_rel m (H : nat -> lP L -> R) h : (forall i, (i < m)%nat -> rel TR (H i) (h i)) ->
    (exists i, (i < m)%nat /\ H i z0 <> 0) -> exists i, first_pivot K m h = Some i /\ (i < m)%nat /\ H i z0 <> 0.
  Proof.
    induction m as [ | m IH]; intros RH (i & Hi & Hp); [lia | ]. cbn [first_pivot].
    assert (RH' : forall i, (i < m)%nat -> rel TR (H i) (h i)) by (intros; apply RH; lia).
    destruct (first_pivot K m h) as [j | ] eqn:E.
    - exists j. split; auto.
      assert (C : forall m h j, first_pivot K m h = Some j -> (j < m)%nat /\ pivotable K (h j) = true).
      { clear. intros m h j. induction m as [ | m IH]; cbn [first_pivot]; [discriminate | ]. destruct (first_pivot K m h).
        - intros [= <-]. destruct IH; auto.
        - destruct (pivotable K (h m)) eqn:E; [ | discriminate]. intros [= <-]. auto. }
      destruct (C m h j E) as [Hj Pj]. split; [lia | ]. apply (pivotable_rel _ _ (RH' j Hj)); auto.
    - assert (Im : i = m).
      { destruct (Nat.eq_dec i m) as [ | N]; auto. exfalso. destruct IH as (j & Ej & _); auto; [exists i; split; auto; lia | congruence]. }
      subst i. rewrite (proj2 (pivotable_rel _ _ (RH m Hi)) Hp). eauto.
  Qed.
  Theorem gaussK_rel N : forall (H : nat -> nat -> lP L -> R) (b : nat -> lP L -> R) h g,
    (forall k l, (k < N)%nat -> (l < N)%nat -> rel TR (H k l) (h k l)) -> (forall k, (k < N)%nat -> rel TR (b k) (g k)) ->
    msing N (fun k l => H k l z0) ->
    exists u U, gaussK K N h g = Some u /\ (forall k, (k < N)%nat -> rel TR (U k) (u k)) /\
      near L (fun z => forall k, (k < N)%nat -> (Sum l < N, H k l z * U l z) = b k z).
  Proof.
    induction N as [ | n IH]; intros H b h g RH Rb M.
    - exists (fun _ => n0), (fun _ _ => 0). split; [reflexivity | ]. split; [intros; lia | ]. apply near_all. intros; lia.
    - cbn [gaussK].
      destruct (first_pivot_rel (S n) (fun i => H i O) (fun i => h i O)) as (i & Ei & Hi & Hp).
      { intros i Hi. apply RH; lia. }
      { exact (pivot n _ M). }
      rewrite Ei. cbv beta in Hp.
      assert (Np : near L (fun z => H i O z <> 0)) by (apply reg_nz; auto; exists (h i O); apply RH; lia).
      assert (Rc : forall k, (k < n)%nat -> rel TR (fun z => H (skip i k) O z / H i O z) (ndiv (h (skip i k) O) (h i O))).
      { intros k Hk. apply (tr_div _ _ TR (H (skip i k) O) (H i O)); auto; apply RH; try lia. apply skip_lt; auto. }
      destruct (IH (fun k l z => elim i (fun k l => H k l z) k l)
        (fun k z => b (skip i k) z - H (skip i k) O z / H i O z * b i z)
        (fun k l => nsub (h (skip i k) (S l)) (nmul (ndiv (h (skip i k) O) (h i O)) (h i (S l))))
        (fun k => nsub (g (skip i k)) (nmul (ndiv (h (skip i k) O) (h i O)) (g i)))) as (u & U & Eu & Ru & EU).
      { intros k l Hk Hl. pose proof (skip_lt i k n Hi Hk). unfold elim.
        apply (tr_sub _ _ TR (H (skip i k) (S l)) (fun z => H (skip i k) O z / H i O z * H i (S l) z)); [apply RH; lia | ].
        apply (tr_mul _ _ TR (fun z => H (skip i k) O z / H i O z) (H i (S l))); auto. apply RH; lia. }
      { intros k Hk. pose proof (skip_lt i k n Hi Hk).
        apply (tr_sub _ _ TR (b (skip i k)) (fun z => H (skip i k) O z / H i O z * b i z)); auto.
        apply (tr_mul _ _ TR (fun z => H (skip i k) O z / H i O z) (b i)); auto. }
      { exact (elim_msing n i (fun k l => H k l z0) Hi Hp M). }
      rewrite Eu. eexists _, (fun l z => back n i (fun k l => H k l z) (b i z) (fun l => U l z) l). split; [reflexivity | ]. split.
      + intros [ | k] Hk; cbn [back]; [ | apply Ru; lia].
        apply (tr_div _ _ TR (fun z => b i z - Sum l < n, H i (S l) z * U l z) (H i O)); [ | apply RH; lia | exact Hp].
        apply (tr_sub _ _ TR (b i) (fun z => Sum l < n, H i (S l) z * U l z)); auto.
        apply (rel_sumR L n (fun l z => H i (S l) z * U l z)). intros l Hl. apply (tr_mul _ _ TR (H i (S l)) (U l)); auto. apply RH; lia.
      + eapply near_imp; [ | exact (near_and L _ _ Np EU)]. intros z [A B].
        exact (elim_solve n i (fun k l => H k l z) Hi A (fun k => b k z) (fun l => U l z) B).
  Qed.
End Level.

Theorem gaussK_lu_dual n : lu_dual n (gaussK_lu (lK (dual n))).
Proof.
  intros N h g Sq Lg Fh Fg NS. unfold gaussK_lu. rewrite Lg.
  destruct (fin_choice (fun _ => 0) N (fun k f => rel (TRn n) f (ix g k))) as (b & Rb). { intros k Hk. apply finite_rel; auto. }
  destruct (fin_choice (fun _ _ => 0) N (fun k (H : nat -> pt n -> R) => forall l, (l < N)%nat -> rel (TRn n) (H l) (ix2 h k l))) as (H & RH).
  { intros k Hk. apply (fin_choice (fun _ => 0) N (fun l f => rel (TRn n) f (ix2 h k l))). intros l Hl. apply finite_rel; auto. }
  destruct (gaussK_rel (dual n) N H b (ix2 h) (ix g)) as (u & U & Eu & Ru & EU); [intros; apply RH; auto | exact Rb | | ].
  - intros w Hw k Hk. apply (NS w); auto. clear k Hk. intros k Hk. rewrite <- (Hw k Hk). unfold mat_vec. apply Sum_ext. intros l Hl. f_equal.
    destruct Sq as [S1 S2].
    assert (E1 : nth k (map (map (real_part n)) h) [] = map (real_part n) (nth k h [])).
    { etransitivity; [apply (nth_indep _ [] (map (real_part n) [])); rewrite map_length; rewrite S1; exact Hk | apply (map_nth (map (real_part n)))]. }
    etransitivity; [exact (f_equal (fun r => @ix RNum r l) E1) | ]. etransitivity; [ | exact (rel_real n _ _ (RH k Hk l Hl))].
    unfold ix2, ix.
    etransitivity; [apply (nth_indep _ _ (real_part n n0)); rewrite map_length, (S2 (nth k h [])); [exact Hl | apply nth_In; rewrite S1; exact Hk] | ].
    apply (map_nth (real_part n)).
  - rewrite Eu. eexists. split; [reflexivity | ]. split; [apply mk1_length | ].
    assert (E : forall k, (k < N)%nat -> ix (mk1 N u) k = u k) by (intros; apply ix_mk1; auto). split.
    + intros k Hk. rewrite E by auto. eapply rel_finite. exact (Ru k Hk).
    + intros k Hk.
      assert (Es : nsumi N (fun l => nmul (ix2 h k l) (ix (mk1 N u) l)) = nsumi N (fun l => nmul (ix2 h k l) (u l))).
      { unfold nsumi. f_equal. apply map_ext_in. intros l Hl. apply in_seq in Hl. rewrite E by lia. reflexivity. }
      rewrite Es. eapply (rel_fun (dual n)); [ | exact (Rb k Hk)].
      eapply (rel_near (dual n) (fun z => Sum l < N, H k l z * U l z)).
      * eapply near_imp; [ | exact EU]. intros z A. exact (A k Hk).
      * apply (rel_sumR (dual n) N (fun l z => H k l z * U l z)). intros l Hl.
        exact (tr_mul _ _ (TRn n) _ _ _ _ (RH k Hk l Hl) (Ru l Hl)).
Qed.
