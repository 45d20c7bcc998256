(** Nested dual numbers represent derivatives of any order.

    Level n has the parameter space R^n (nested pairs, base point 0) and the number structure of
    n-fold dual numbers over the extended reals.  [rel f a] at level n+1 says, for f(x, y) with
    x real and y in R^n: the real part of [a] represents f(0, .) and the dual part represents the
    partial derivative of f in x at x = 0, which exists for every y near 0. *)
From Coq Require Import ZArith QArith Reals Lra Lia List Bool.
From Coquelicot Require Import Coquelicot.
From Verif Require Import Num RNum RSum Tables M_Params F_Params M_Eos F_Transfer XNum DNum.
Import ListNotations.
Local Open Scope R_scope.
Set Bullet Behavior "Strict Subproofs".

Record level := mkLevel {
  lP : Type;                             (* parameter space *)
  lz : lP;                               (* base point *)
  near : (lP -> Prop) -> Prop;           (* neighbourhoods of the base point *)
  lK : Num;
  lT : Transfer lK lz;
  near_and : forall P Q, near P -> near Q -> near (fun z => P z /\ Q z);
  near_imp : forall P Q : lP -> Prop, (forall z, P z -> Q z) -> near P -> near Q;
  near_true : near (fun _ => True);
  near_z : forall P, near P -> P lz;
  rel_near : forall f g a, near (fun z => f z = g z) -> rel lT f a -> rel lT g a;
  rel_gt : forall f a c, rel lT f a -> c < f lz -> near (fun z => c < f z);
  rel_lt : forall f a c, rel lT f a -> f lz < c -> near (fun z => f z < c);
  rel_nan : forall f a, rel lT f a -> nisnan a = false;
  rel_fun : forall f a b, rel lT f a -> rel lT f b -> a = b;
  pade_nan : forall f g h a b c, rel lT f a -> rel lT g b -> rel lT h c -> f lz = 0 -> g lz = 0 ->
    nisnan (nmul (ndiv (nmul a a) (nsub a b)) c) = true
}.

Definition level0 : level.
Proof.
  refine (mkLevel unit tt (fun P => P tt) XNum (XTransfer tt) _ _ _ _ _ _ _ _ _ _); cbn; auto.
  - intros f g a E H. rewrite H, E. auto.
  - intros f a ->. reflexivity.
  - intros f a b -> ->. reflexivity.
  - intros f g h a b c -> -> -> E1 E2. rewrite E1, E2. cbn.
    destruct (Req_EM_T (0 + - 0) 0); [ | lra]. rewrite Rmult_0_l, sgn_inf_0. reflexivity.
Defined.

Section Next.
  Variable L : level.
  Notation P := (lP L). Notation K := (lK L). Notation TR := (lT L). Notation nr := (near L).
  Definition P' : Type := R * P.
  Definition z' : P' := (0, lz L).
  Definition near' (Q : P' -> Prop) : Prop := nr (fun y => locally 0 (fun x => Q (x, y))).
  Definition rel' (f : P' -> R) (a : car (DualOf K)) : Prop :=
    rel TR (fun y => f (0, y)) (fst a) /\
    exists g, rel TR g (snd a) /\ nr (fun y => is_derive (fun x => f (x, y)) 0 (g y)).
  Definition emb' (r : R) : car (DualOf K) := (emb TR r, n0).

  Lemma near_and' Q S : near' Q -> near' S -> near' (fun z => Q z /\ S z).
  Proof.
    intros A B. unfold near'. eapply near_imp; [ | exact (near_and L _ _ A B)]. intros y [C D].
    exact (filter_and _ _ C D).
  Qed.
  Lemma near_imp' (Q S : P' -> Prop) : (forall z, Q z -> S z) -> near' Q -> near' S.
  Proof.
    intros H A. unfold near'. eapply near_imp; [ | exact A]. intros y C. cbv beta.
    eapply filter_imp; [ | exact C]. intros x. apply H.
  Qed.
  Lemma near_true' : near' (fun _ => True).
  Proof. unfold near'. eapply near_imp; [ | apply near_true]. intros. apply filter_true. Qed.
  Lemma near_z' Q : near' Q -> Q z'.
  Proof. intros A. apply (near_z L) in A. exact (locally_singleton _ _ A). Qed.
  Lemma near_slice Q : near' Q -> nr (fun y => Q (0, y)).
  Proof. intros A. eapply near_imp; [ | exact A]. intros y C. exact (locally_singleton _ _ C). Qed.

  Lemma rel_near' f g a : near' (fun z => f z = g z) -> rel' f a -> rel' g a.
  Proof.
    intros E (A & h & B & C). split.
    - apply (rel_near L (fun y => f (0, y))); auto. exact (near_slice _ E).
    - exists h. split; auto. eapply near_imp; [ | exact (near_and L _ _ E C)]. intros y [D1 D2].
      exact (is_derive_ext_loc (fun x => f (x, y)) (fun x => g (x, y)) 0 _ D1 D2).
  Qed.
  Lemma rel_eq' f g a : (forall z, f z = g z) -> rel' f a -> rel' g a.
  Proof. intros E. apply rel_near'. eapply near_imp'; [ | apply near_true']. auto. Qed.
  Lemma rel_gt' f a c : rel' f a -> c < f z' -> near' (fun z => c < f z).
  Proof.
    intros (A & h & B & C) H. unfold near'.
    eapply near_imp; [ | exact (near_and L _ _ C (rel_gt L _ _ c A H))].
    intros y [D1 D2]. cbv beta in D2.
    assert (Cn : continuous (fun x => f (x, y)) 0) by (apply (ex_derive_continuous (fun x => f (x, y))); eexists; exact D1).
    exact (Cn _ (open_gt c _ D2)).
  Qed.
  Lemma rel_lt' f a c : rel' f a -> f z' < c -> near' (fun z => f z < c).
  Proof.
    intros (A & h & B & C) H. unfold near'.
    eapply near_imp; [ | exact (near_and L _ _ C (rel_lt L _ _ c A H))].
    intros y [D1 D2]. cbv beta in D2.
    assert (Cn : continuous (fun x => f (x, y)) 0) by (apply (ex_derive_continuous (fun x => f (x, y))); eexists; exact D1).
    exact (Cn _ (open_lt c _ D2)).
  Qed.
  Lemma rel_nz f a : rel TR f a -> f (lz L) <> 0 -> nr (fun y => f y <> 0).
  Proof.
    intros H N. destruct (Rlt_or_le 0 (f (lz L))).
    - eapply near_imp; [ | exact (rel_gt L _ _ 0 H H0)]. intros; lra.
    - assert (f (lz L) < 0) by lra. eapply near_imp; [ | exact (rel_lt L _ _ 0 H H1)]. intros; lra.
  Qed.

  (** derivative rules for the slice derivative *)
  Lemma rel_pair (f : P' -> R) a b g : rel TR (fun y => f (0, y)) a -> rel TR g b ->
    nr (fun y => is_derive (fun x => f (x, y)) 0 (g y)) -> rel' f (a, b).
  Proof. intros. split; auto. exists g. auto. Qed.
  Lemma rel_chain (phi : R -> R) (phi' : R -> R) f a f0 f1 : rel' f a ->
    rel TR (fun y => phi (f (0, y))) f0 -> rel TR (fun y => phi' (f (0, y))) f1 ->
    nr (fun y => is_derive phi (f (0, y)) (phi' (f (0, y)))) ->
    rel' (fun z => phi (f z)) (dchain K a f0 f1).
  Proof.
    intros (A & h & B & C) H0 H1 H2. split; [exact H0 | ].
    exists (fun y => h y * phi' (f (0, y))). split; [exact (tr_mul _ _ TR _ _ _ _ B H1) | ].
    eapply near_imp; [ | exact (near_and L _ _ C H2)]. intros y [D1 D2].
    exact (is_derive_comp phi (fun x => f (x, y)) 0 _ _ D2 D1).
  Qed.

  Lemma rel_lit' q : rel' (fun _ => @nlit RNum q) (@nlit (DualOf K) q).
  Proof.
    apply (rel_pair _ _ _ (fun _ => @nlit RNum 0%Q)); [apply (tr_lit _ _ TR) | apply (tr_lit _ _ TR) | ].
    eapply near_imp; [ | apply near_true]. intros y _. replace (@nlit RNum 0%Q) with 0 by (rn; lra).
    apply (is_derive_const (V := R_NormedModule)).
  Qed.
  Lemma near_all (Q : P -> Prop) : (forall y, Q y) -> nr Q.
  Proof. intros H. eapply near_imp; [ | apply near_true]. auto. Qed.
  Notation rl := (rel TR).
  Ltac slice H := let A := fresh "A" in let h := fresh "h" in let B := fresh "B" in let C := fresh "C" in
    destruct H as (A & h & B & C).

  Lemma rel_add' f g a b : rel' f a -> rel' g b -> rel' (fun x => @nadd RNum (f x) (g x)) (@nadd (DualOf K) a b).
  Proof.
    intros (A1 & h1 & B1 & C1) (A2 & h2 & B2 & C2).
    apply (rel_pair _ _ _ (fun y => h1 y + h2 y)); [exact (tr_add _ _ TR _ _ _ _ A1 A2) | exact (tr_add _ _ TR _ _ _ _ B1 B2) | ].
    eapply near_imp; [ | exact (near_and L _ _ C1 C2)]. intros y [D1 D2].
    exact (is_derive_plus (fun x => f (x, y)) (fun x => g (x, y)) 0 _ _ D1 D2).
  Qed.
  Lemma rel_sub' f g a b : rel' f a -> rel' g b -> rel' (fun x => @nsub RNum (f x) (g x)) (@nsub (DualOf K) a b).
  Proof.
    intros (A1 & h1 & B1 & C1) (A2 & h2 & B2 & C2).
    apply (rel_pair _ _ _ (fun y => h1 y - h2 y)); [exact (tr_sub _ _ TR _ _ _ _ A1 A2) | exact (tr_sub _ _ TR _ _ _ _ B1 B2) | ].
    eapply near_imp; [ | exact (near_and L _ _ C1 C2)]. intros y [D1 D2].
    exact (is_derive_minus (fun x => f (x, y)) (fun x => g (x, y)) 0 _ _ D1 D2).
  Qed.
  Lemma rel_mul' f g a b : rel' f a -> rel' g b -> rel' (fun x => @nmul RNum (f x) (g x)) (@nmul (DualOf K) a b).
  Proof.
    destruct a as [a a'], b as [b b']. intros (A1 & h1 & B1 & C1) (A2 & h2 & B2 & C2).
    apply (rel_pair _ _ _ (fun y => f (0, y) * h2 y + h1 y * g (0, y))).
    - exact (tr_mul _ _ TR _ _ _ _ A1 A2).
    - exact (tr_add _ _ TR _ _ _ _ (tr_mul _ _ TR _ _ _ _ A1 B2) (tr_mul _ _ TR _ _ _ _ B1 A2)).
    - eapply near_imp; [ | exact (near_and L _ _ C1 C2)]. intros y [D1 D2].
      rewrite Rplus_comm.
      exact (is_derive_mult (fun x => f (x, y)) (fun x => g (x, y)) 0 _ _ D1 D2 Rmult_comm).
  Qed.
  Lemma rel_opp' f a : rel' f a -> rel' (fun x => @nopp RNum (f x)) (@nopp (DualOf K) a).
  Proof.
    intros (A1 & h1 & B1 & C1).
    apply (rel_pair _ _ _ (fun y => - h1 y)); [exact (tr_opp _ _ TR _ _ A1) | exact (tr_opp _ _ TR _ _ B1) | ].
    eapply near_imp; [ | exact C1]. intros y D1. exact (is_derive_opp (fun x => f (x, y)) 0 _ D1).
  Qed.
  Lemma rel_recip' f a : rel' f a -> f z' <> 0 -> rel' (fun x => @nrecip RNum (f x)) (@nrecip (DualOf K) a).
  Proof.
    destruct a as [a a']. intros (A1 & h1 & B1 & C1) N. assert (R1 := tr_recip _ _ TR _ _ A1 N).
    apply (rel_pair _ _ _ (fun y => - (h1 y * (/ f (0, y) * / f (0, y))))).
    - exact R1.
    - exact (tr_opp _ _ TR _ _ (tr_mul _ _ TR _ _ _ _ B1 (tr_mul _ _ TR _ _ _ _ R1 R1))).
    - eapply near_imp; [ | exact (near_and L _ _ C1 (rel_nz _ _ A1 N))]. intros y [D1 D2]. cbv beta in D2.
      replace (- (h1 y * (/ f (0, y) * / f (0, y)))) with (- h1 y / f (0, y) ^ 2) by (field; auto).
      exact (is_derive_inv (fun x => f (x, y)) 0 _ D1 D2).
  Qed.
  Lemma rel_div' f g a b : rel' f a -> rel' g b -> g z' <> 0 -> rel' (fun x => @ndiv RNum (f x) (g x)) (@ndiv (DualOf K) a b).
  Proof.
    destruct a as [a a'], b as [b b']. intros (A1 & h1 & B1 & C1) (A2 & h2 & B2 & C2) N.
    apply (rel_pair _ _ _ (fun y => (h1 y * g (0, y) - f (0, y) * h2 y) / (g (0, y) * g (0, y)))).
    - exact (tr_div _ _ TR _ _ _ _ A1 A2 N).
    - apply (tr_div _ _ TR (fun y => h1 y * g (0, y) - f (0, y) * h2 y) (fun y => g (0, y) * g (0, y))).
      + exact (tr_sub _ _ TR _ _ _ _ (tr_mul _ _ TR _ _ _ _ B1 A2) (tr_mul _ _ TR _ _ _ _ A1 B2)).
      + exact (tr_mul _ _ TR _ _ _ _ A2 A2).
      + apply Rmult_integral_contrapositive_currified; exact N.
    - eapply near_imp; [ | exact (near_and L _ _ (near_and L _ _ C1 C2) (rel_nz _ _ A2 N))]. intros y [[D1 D2] D3]. cbv beta in D3.
      assert (E := is_derive_div (fun x => f (x, y)) (fun x => g (x, y)) 0 _ _ D1 D2 D3).
      eapply (is_derive_ext (fun x => f (x, y) / g (x, y))); [reflexivity | ].
      match type of E with is_derive _ _ ?l => replace ((h1 y * g (0, y) - f (0, y) * h2 y) / (g (0, y) * g (0, y))) with l end; [exact E | ].
      cbv beta. field. auto.
  Qed.
  Lemma rel_powi' f a n : rel' f a -> rel' (fun x => @npowi RNum (f x) n) (@npowi (DualOf K) a n).
  Proof.
    intros H. destruct n as [ | n].
    - apply (rel_eq' (fun _ => @nlit RNum 1%Q)); [intros; rn; lra | ]. exact (rel_lit' 1%Q).
    - assert (E : @nlit RNum (inject_Z (Z.of_nat (S n))) = INR (S n)).
      { rewrite INR_IZR_INZ. cbn [nlit RNum inject_Z]. generalize (Z.of_nat (S n)). intros z.
        unfold Rlit. cbn [Qnum Qden inject_Z]. destruct z; lra. }
      apply (rel_chain (fun r => r ^ S n) (fun r => @nlit RNum (inject_Z (Z.of_nat (S n))) * r ^ n) f a); auto.
      + destruct H as [A _]. exact (tr_powi _ _ TR _ _ (S n) A).
      + destruct H as [A _]. exact (tr_mul _ _ TR _ _ _ _ (tr_lit _ _ TR _) (tr_powi _ _ TR _ _ n A)).
      + apply near_all. intros y. rewrite E. apply is_derive_Reals. exact (derivable_pt_lim_pow _ (S n)).
  Qed.
  Lemma rel_exp' f a : rel' f a -> rel' (fun x => @nexp RNum (f x)) (@nexp (DualOf K) a).
  Proof.
    intros H. apply (rel_chain exp exp); auto; destruct H as [A _]; try exact (tr_exp _ _ TR _ _ A).
    apply near_all. intros y. auto_derive; auto. ring.
  Qed.
  Lemma rel_expm1' f a : rel' f a -> rel' (fun x => @nexpm1 RNum (f x)) (@nexpm1 (DualOf K) a).
  Proof.
    intros H. apply (rel_chain (fun x => exp x - 1) exp); auto; destruct H as [A _].
    - exact (tr_expm1 _ _ TR _ _ A).
    - exact (tr_exp _ _ TR _ _ A).
    - apply near_all. intros y. auto_derive; auto. ring.
  Qed.
  Lemma rel_ln' f a : rel' f a -> 0 < f z' -> rel' (fun x => @nln RNum (f x)) (@nln (DualOf K) a).
  Proof.
    intros H P0. apply (rel_chain ln Rinv); auto; destruct H as [A _].
    - exact (tr_ln _ _ TR _ _ A P0).
    - apply (tr_recip _ _ TR _ _ A). unfold z' in P0. lra.
    - eapply near_imp; [ | exact (rel_gt L _ _ 0 A P0)]. intros y D. cbv beta in D. auto_derive; auto. field. lra.
  Qed.
  Lemma rel_ln1p' f a : rel' f a -> 0 < 1 + f z' -> rel' (fun x => @nln1p RNum (f x)) (@nln1p (DualOf K) a).
  Proof.
    intros H P0. apply (rel_chain (fun x => ln (1 + x)) (fun x => / (x + @nlit RNum 1%Q))); auto; destruct H as [A _].
    - exact (tr_ln1p _ _ TR _ _ A P0).
    - apply (tr_recip _ _ TR (fun y => f (0, y) + @nlit RNum 1%Q)).
      + exact (tr_add _ _ TR _ _ _ _ A (tr_lit _ _ TR 1%Q)).
      + rn. unfold z' in P0. lra.
    - assert (P1 : -1 < f z') by lra. eapply near_imp; [ | exact (rel_gt L _ _ (-1) A P1)]. intros y D. cbv beta in D. rn.
      auto_derive; [lra | ]. field. lra.
  Qed.
  Lemma rel_sqrt' f a : rel' f a -> 0 < f z' -> rel' (fun x => @nsqrt RNum (f x)) (@nsqrt (DualOf K) a).
  Proof.
    intros H P0. apply (rel_chain sqrt (fun x => / x * sqrt x * @nlit RNum 0.5%Q)); auto; destruct H as [A _].
    - exact (tr_sqrt _ _ TR _ _ A P0).
    - apply (tr_mul _ _ TR (fun y => / f (0, y) * sqrt (f (0, y)))); [ | apply (tr_lit _ _ TR)].
      apply (tr_mul _ _ TR (fun y => / f (0, y)) (fun y => sqrt (f (0, y)))).
      + apply (tr_recip _ _ TR _ _ A). unfold z' in P0. lra.
      + exact (tr_sqrt _ _ TR _ _ A P0).
    - eapply near_imp; [ | exact (rel_gt L _ _ 0 A P0)]. intros y D. cbv beta in D. rn.
      generalize dependent (f (0, y)). intros r D. auto_derive; auto.
      assert (S := sqrt_lt_R0 _ D). assert (E := sqrt_sqrt r ltac:(lra)).
      replace (/ r) with (/ (sqrt r * sqrt r)) by (rewrite E; auto). field. lra.
  Qed.
  Lemma Rcbrt_derive r : 0 < r -> is_derive Rcbrt r (Rcbrt r / (r * 3)).
  Proof.
    intros D. apply (is_derive_ext_loc (fun x => Rpower x (/ 3))).
    - exists (mkposreal r D). intros x Hx. unfold Rcbrt.
      assert (0 < x). { unfold ball in Hx. cbn in Hx. unfold AbsRing_ball, abs, minus, plus, opp in Hx. cbn in Hx. apply Rabs_def2 in Hx. lra. }
      destruct (Rlt_dec 0 x); [reflexivity | contradiction].
    - unfold Rcbrt. destruct (Rlt_dec 0 r) as [_ | ]; [ | contradiction]. unfold Rpower. auto_derive; auto. field. lra.
  Qed.
  Lemma rel_cbrt' f a : rel' f a -> 0 < f z' -> rel' (fun x => @ncbrt RNum (f x)) (@ncbrt (DualOf K) a).
  Proof.
    intros H P0. apply (rel_chain Rcbrt (fun x => Rcbrt x / (x * @nlit RNum 3%Q))); auto; destruct H as [A _].
    - exact (tr_cbrt _ _ TR _ _ A P0).
    - apply (tr_div _ _ TR (fun y => Rcbrt (f (0, y))) (fun y => f (0, y) * @nlit RNum 3%Q)).
      + exact (tr_cbrt _ _ TR _ _ A P0).
      + exact (tr_mul _ _ TR _ _ _ _ A (tr_lit _ _ TR _)).
      + rn. unfold z' in P0. lra.
    - eapply near_imp; [ | exact (rel_gt L _ _ 0 A P0)]. intros y D. cbv beta in D. rn. apply Rcbrt_derive; auto.
  Qed.
  Lemma rel_min' r q a b : rel' (fun _ => r) a -> rel' (fun _ => q) b -> rel' (fun _ => @nmin RNum r q) (@nmin (DualOf K) a b).
  Proof.
    intros H1 H2. cbn [nmin DualOf]. rewrite (tr_ltb _ _ TR _ _ _ _ (proj1 H2) (proj1 H1)). cbn [nltb RNum nmin].
    unfold Rmin. destruct (Rltb q r) eqn:E.
    - apply Rltb_true in E. destruct (Rle_dec r q); [lra | auto].
    - apply Rltb_false in E. destruct (Rle_dec r q); [auto | lra].
  Qed.
  Lemma rel_ltb' f g a b : rel' f a -> rel' g b -> @nltb (DualOf K) a b = @nltb RNum (f z') (g z').
  Proof. intros [H1 _] [H2 _]. exact (tr_ltb _ _ TR _ _ _ _ H1 H2). Qed.

  (** a comparison keeps its outcome near the base point *)
  Definition brok' (f g : P' -> R) : Prop := near' (fun z => Rltb (f z) (g z) = Rltb (f z') (g z')).
  Lemma rel_br' (f g u v : P' -> R) c : brok' f g ->
    rel' (if @nltb RNum (f z') (g z') then u else v) c ->
    rel' (fun x => if @nltb RNum (f x) (g x) then u x else v x) c.
  Proof.
    intros B H. eapply rel_near'; [ | exact H]. eapply near_imp'; [ | exact B]. intros z E. cbv beta in E.
    change (@nltb RNum) with Rltb. rewrite E. destruct (Rltb (f z') (g z')); reflexivity.
  Qed.

  (** the Pade term: no pole, or both orders vanish and the term agrees with its second order
      part to the order of the level *)
  Definition padeok' (f g : P' -> R) : Prop :=
    f z' <> g z' \/
    (f z' = 0 /\ g z' = 0 /\
     forall h c, rel' (fun z => f z * h z) c -> rel' (fun z => @pade RNum (f z) (g z) (h z)) c).
  Lemma rel_nan' f a : rel' f a -> @nisnan (DualOf K) a = false.
  Proof. intros [A _]. exact (rel_nan L _ _ A). Qed.
  Lemma pade_nan' f g h a b c : rel' f a -> rel' g b -> rel' h c -> f z' = 0 -> g z' = 0 ->
    @nisnan (DualOf K) (nmul (ndiv (nmul a a) (nsub a b)) c) = true.
  Proof.
    destruct a as [a a'], b as [b b'], c as [c c']. intros [A _] [B _] [C _] E1 E2.
    exact (pade_nan L _ _ _ _ _ _ A B C E1 E2).
  Qed.
  Lemma rel_pade' f g h a b c : rel' f a -> rel' g b -> rel' h c -> padeok' f g ->
    rel' (fun x => @pade RNum (f x) (g x) (h x)) (@pade (DualOf K) a b c).
  Proof.
    intros A B C [N | (E1 & E2 & H)].
    - assert (Hr : rel' (fun x => @nmul RNum (@ndiv RNum (@nmul RNum (f x) (f x)) (@nsub RNum (f x) (g x))) (h x)) (@nmul (DualOf K) (ndiv (nmul a a) (nsub a b)) c)).
      { apply (rel_mul' (fun x => @ndiv RNum (@nmul RNum (f x) (f x)) (@nsub RNum (f x) (g x)))); auto.
        apply (rel_div' (fun x => @nmul RNum (f x) (f x)) (fun x => @nsub RNum (f x) (g x))).
        - apply rel_mul'; auto.
        - apply rel_sub'; auto.
        - rn. lra. }
      unfold pade. rewrite (rel_nan' _ _ Hr). exact Hr.
    - unfold pade at 2. rewrite (pade_nan' _ _ _ _ _ _ A B C E1 E2). apply H. exact (rel_mul' _ _ _ _ A C).
  Qed.
  Lemma rel_emb' r : rel' (fun _ => r) (emb' r).
  Proof.
    apply (rel_pair _ _ _ (fun _ => @nlit RNum 0%Q)); [apply (tr_emb _ _ TR) | apply (tr_lit _ _ TR) | ].
    apply near_all. intros y. replace (@nlit RNum 0%Q) with 0 by (rn; lra). apply (is_derive_const (V := R_NormedModule)).
  Qed.
  Lemma rel_pi' : rel' (fun _ => @npi RNum) (@npi (DualOf K)).
  Proof.
    apply (rel_pair _ _ _ (fun _ => @nlit RNum 0%Q)); [apply (tr_pi _ _ TR) | apply (tr_lit _ _ TR) | ].
    apply near_all. intros y. replace (@nlit RNum 0%Q) with 0 by (rn; lra). apply (is_derive_const (V := R_NormedModule)).
  Qed.
  Lemma rel_fun' f a b : rel' f a -> rel' f b -> a = b.
  Proof.
    destruct a as [a a'], b as [b b']. intros (A1 & h1 & B1 & C1) (A2 & h2 & B2 & C2).
    f_equal; [exact (rel_fun L _ _ _ A1 A2) | ]. apply (rel_fun L h2); auto.
    apply (rel_near L h1); auto. eapply near_imp; [ | exact (near_and L _ _ C1 C2)]. intros y [D1 D2].
    apply is_derive_unique in D1, D2. congruence.
  Qed.
  Definition T' : Transfer (DualOf K) z' :=
    mkTransfer _ (DualOf K) z' rel' emb' padeok' brok' rel_emb' rel_lit' rel_pi' rel_add' rel_sub' rel_mul' rel_opp'
      rel_div' rel_recip' rel_powi' rel_exp' rel_expm1' rel_ln' rel_ln1p' rel_sqrt' rel_cbrt' rel_min' rel_ltb' rel_br' rel_pade'.
  Definition next : level :=
    mkLevel P' z' near' (DualOf K) T' near_and' near_imp' near_true' near_z' rel_near' rel_gt' rel_lt' rel_nan' rel_fun' pade_nan'.
End Next.

Fixpoint dual (n : nat) : level := match n with O => level0 | S k => next (dual k) end.
