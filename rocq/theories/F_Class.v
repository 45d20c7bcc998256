(** Classes of differentiable functions as levels.

    A class [good] of functions closed under constants, sums, products and composition with twice
    differentiable functions of one variable is preserved by every evaluation of the model: the
    evaluation over the extended reals is then a transfer that records the value and membership in
    the class.  Two classes are used: functions of several variables whose derivative in every
    direction is linear in the direction, and functions of two variables whose mixed derivatives
    agree. *)
From Coq Require Import ZArith QArith Reals Lra Lia List Bool.
From Coquelicot Require Import Coquelicot.
From Verif Require Import Num RNum RSum Tables M_Params F_Params M_Eos F_Transfer XNum DNum F_Level.
Import ListNotations.
Local Open Scope R_scope.
Set Bullet Behavior "Strict Subproofs".

Section Class.
  Variables (Pt : Type) (x0 : Pt) (nr : (Pt -> Prop) -> Prop) (good : (Pt -> R) -> Prop).
  Hypothesis n_and : forall P Q, nr P -> nr Q -> nr (fun z => P z /\ Q z).
  Hypothesis n_imp : forall P Q : Pt -> Prop, (forall z, P z -> Q z) -> nr P -> nr Q.
  Hypothesis n_true : nr (fun _ => True).
  Hypothesis n_z : forall P, nr P -> P x0.
  Hypothesis g_near : forall f g, nr (fun z => f z = g z) -> good f -> good g.
  Hypothesis g_const : forall c, good (fun _ => c).
  Hypothesis g_add : forall f g, good f -> good g -> good (fun z => f z + g z).
  Hypothesis g_mul : forall f g, good f -> good g -> good (fun z => f z * g z).
  Hypothesis g_chain : forall (phi phi' : R -> R) f, good f ->
    locally (f x0) (fun u => is_derive phi u (phi' u)) -> ex_derive phi' (f x0) -> good (fun z => phi (f z)).
  Hypothesis g_gt : forall f c, good f -> c < f x0 -> nr (fun z => c < f z).

  Definition crel (f : Pt -> R) (a : xr) : Prop := a = Fin (f x0) /\ good f.

  Lemma g_ext f g : (forall z, f z = g z) -> good f -> good g.
  Proof. intros E. apply g_near. eapply n_imp; [ | apply n_true]. auto. Qed.
  Lemma g_opp f : good f -> good (fun z => - f z).
  Proof. intros H. apply (g_ext (fun z => -1 * f z)); [intros; ring | ]. apply g_mul; auto. Qed.
  Lemma g_sub f g : good f -> good g -> good (fun z => f z - g z).
  Proof. intros A B. apply (g_ext (fun z => f z + - g z)); [intros; ring | ]. apply g_add; auto. apply g_opp; auto. Qed.
  Lemma g_pow f n : good f -> good (fun z => f z ^ n).
  Proof. intros H. induction n as [ | n IH]; cbn [pow]; auto. Qed.
  Lemma g_lt f c : good f -> f x0 < c -> nr (fun z => f z < c).
  Proof.
    intros H L. assert (L' : - c < - f x0) by lra. eapply n_imp; [ | exact (g_gt _ (- c) (g_opp _ H) L')]. intros z Hz. cbv beta in Hz. lra.
  Qed.
  Lemma loc_neq (c : R) : c <> 0 -> locally c (fun u => u <> 0).
  Proof.
    intros H. destruct (Rlt_or_le c 0) as [L | L].
    - eapply filter_imp; [ | exact (open_lt 0 c L)]. intros u Hu. lra.
    - assert (L' : 0 < c) by lra. eapply filter_imp; [ | exact (open_gt 0 c L')]. intros u Hu. lra.
  Qed.
  Lemma g_inv f : good f -> f x0 <> 0 -> good (fun z => / f z).
  Proof.
    intros H N0. apply (g_chain Rinv (fun u => - / (u * u))); auto.
    - eapply filter_imp; [ | exact (loc_neq _ N0)]. intros u Hu. cbv beta in Hu. auto_derive; auto. field. auto.
    - auto_derive. intros Z. apply N0. destruct (Rmult_integral _ _ Z); auto.
  Qed.
  Lemma g_div f g : good f -> good g -> g x0 <> 0 -> good (fun z => f z / g z).
  Proof. intros A B N0. apply (g_mul f (fun z => / g z)); auto. apply g_inv; auto. Qed.
  Lemma g_exp f : good f -> good (fun z => exp (f z)).
  Proof.
    intros H. apply (g_chain exp exp); auto.
    - exists (mkposreal 1 Rlt_0_1). intros u _. auto_derive; auto. ring.
    - auto_derive. auto.
  Qed.
  Lemma g_ln f : good f -> 0 < f x0 -> good (fun z => ln (f z)).
  Proof.
    intros H N0. apply (g_chain ln Rinv); auto.
    - eapply filter_imp; [ | exact (open_gt 0 _ N0)]. intros u Hu. cbv beta in Hu. auto_derive; auto. field. lra.
    - auto_derive. lra.
  Qed.
  Lemma g_sqrt f : good f -> 0 < f x0 -> good (fun z => sqrt (f z)).
  Proof.
    intros H N0. apply (g_chain sqrt (fun u => / (2 * sqrt u))); auto.
    - eapply filter_imp; [ | exact (open_gt 0 _ N0)]. intros u Hu. cbv beta in Hu. auto_derive; auto. field.
      apply Rgt_not_eq. apply sqrt_lt_R0; auto.
    - auto_derive. split; auto. pose proof (sqrt_lt_R0 _ N0). split; auto. lra.
  Qed.
  Lemma g_cbrt f : good f -> 0 < f x0 -> good (fun z => Rcbrt (f z)).
  Proof.
    intros H N0. apply (g_chain Rcbrt (fun u => Rcbrt u / (u * 3))); auto.
    - eapply filter_imp; [ | exact (open_gt 0 _ N0)]. intros u Hu. apply Rcbrt_derive; auto.
    - assert (D : ex_derive Rcbrt (f x0)) by (eexists; apply Rcbrt_derive; auto).
      apply (ex_derive_div Rcbrt (fun u => u * 3)); auto; [auto_derive; auto | lra].
  Qed.
  Lemma near_const (f : Pt -> R) c : nr (fun z => f z = c) -> good f.
  Proof. intros H. apply (g_near (fun _ => c)); auto. eapply n_imp; [ | exact H]. intros z E. auto. Qed.

  Definition CTransfer : Transfer XNum x0.
  Proof.
    refine (mkTransfer _ XNum x0 crel Fin
      (fun f g => f x0 <> g x0 \/ nr (fun z => f z = 0 /\ g z = 0))
      (fun f g => nr (fun z => @nltb RNum (f z) (g z) = @nltb RNum (f x0) (g x0)))
      _ _ _ _ _ _ _ _ _ _ _ _ _ _ _ _ _ _ _ _); unfold crel.
    - intros r. split; auto.
    - intros q. split; [exact (tr_lit _ _ (XTransfer x0) q) | auto].
    - split; [exact (tr_pi _ _ (XTransfer x0)) | auto].
    - intros f g a b [-> A] [-> B]. split; [reflexivity | apply (g_add f g); auto].
    - intros f g a b [-> A] [-> B]. split; [reflexivity | apply (g_sub f g); auto].
    - intros f g a b [-> A] [-> B]. split; [reflexivity | apply (g_mul f g); auto].
    - intros f a [-> A]. split; [reflexivity | apply (g_opp f); auto].
    - intros f g a b [-> A] [-> B] N0. split; [exact (tr_div _ _ (XTransfer x0) f g _ _ eq_refl eq_refl N0) | apply (g_div f g); auto].
    - intros f a [-> A] N0. split; [exact (tr_recip _ _ (XTransfer x0) f _ eq_refl N0) | ].
      apply (g_inv f); auto.
    - intros f a n [-> A]. split; [exact (tr_powi _ _ (XTransfer x0) f _ n eq_refl) | apply (g_pow f); auto].
    - intros f a [-> A]. split; [reflexivity | apply (g_exp f); auto].
    - intros f a [-> A]. split; [exact (tr_expm1 _ _ (XTransfer x0) f _ eq_refl) | ]. apply (g_sub (fun z => exp (f z)) (fun _ => 1)); auto. apply g_exp; auto.
    - intros f a [-> A] N0. split; [exact (tr_ln _ _ (XTransfer x0) f _ eq_refl N0) | apply (g_ln f); auto].
    - intros f a [-> A] N0. split; [exact (tr_ln1p _ _ (XTransfer x0) f _ eq_refl N0) | apply (g_ln (fun z => 1 + f z)); auto].
    - intros f a [-> A] N0. split; [exact (tr_sqrt _ _ (XTransfer x0) f _ eq_refl N0) | apply (g_sqrt f); auto].
    - intros f a [-> A] N0. split; [exact (tr_cbrt _ _ (XTransfer x0) f _ eq_refl N0) | apply (g_cbrt f); auto].
    - intros r q a b [-> A] [-> B]. split; [exact (tr_min _ _ (XTransfer x0) r q _ _ eq_refl eq_refl) | auto].
    - intros f g a b [-> A] [-> B]. exact (tr_ltb _ _ (XTransfer x0) f g _ _ eq_refl eq_refl).
    - intros f g u v c H [E G]. split; [rewrite E; destruct (@nltb RNum (f x0) (g x0)); reflexivity | ].
      eapply g_near; [ | exact G]. eapply n_imp; [ | exact H]. intros z Hz. cbv beta in Hz. rewrite Hz.
      destruct (@nltb RNum (f x0) (g x0)); reflexivity.
    - intros f g h a b c [-> A] [-> B] [-> C] H. split.
      + apply (tr_pade _ _ (XTransfer x0) f g h); try reflexivity. destruct H as [H | H]; [left; auto | right].
        destruct (n_z _ H) as [H1 _]. exact H1.
      + destruct H as [H | H].
        * apply (g_ext (fun z => f z * f z / (f z - g z) * h z)); [intros; reflexivity | ].
          apply (g_mul (fun z => f z * f z / (f z - g z)) h); auto. apply (g_div (fun z => f z * f z) (fun z => f z - g z)).
          -- apply (g_mul f f); auto.
          -- apply (g_sub f g); auto.
          -- lra.
        * apply (near_const _ 0). eapply n_imp; [ | exact H]. intros z [-> ->]. unfold pade. rn. unfold Rdiv. ring.
  Defined.

  Definition class_level : level.
  Proof.
    refine (mkLevel Pt x0 nr XNum CTransfer n_and n_imp n_true n_z _ _ _ _ _ _).
    - intros f g a E [-> H]. split; [ | exact (g_near _ _ E H)]. rewrite (n_z _ E). reflexivity.
    - intros f a c [_ H]. apply g_gt; auto.
    - intros f a c [_ H]. apply g_lt; auto.
    - intros f a [-> _]. reflexivity.
    - intros f a b [-> _] [-> _]. reflexivity.
    - intros f g h a b c [-> _] [-> _] [-> _] E1 E2. rewrite E1, E2. cbn.
      destruct (Req_EM_T (0 + - 0) 0); [ | lra]. rewrite Rmult_0_l, sgn_inf_0. reflexivity.
  Defined.
End Class.

(* ------------------------------------------- derivatives linear in the direction (Gateaux) *)

Section Linear.
  Variable N : nat.
  Definition vec : Type := nat -> R.
  Definition vzero : vec := fun _ => 0.
  Definition along (w : vec) (s : R) : vec := fun k => s * w k.
  Definition vnear (Q : vec -> Prop) : Prop := forall w, locally 0 (fun s => Q (along w s)).
  (** g k is the derivative in coordinate k *)
  Definition gradient (f : vec -> R) (g : nat -> R) : Prop :=
    forall w, is_derive (fun s => f (along w s)) 0 (Sum k < N, g k * w k).
  Definition differentiable (f : vec -> R) : Prop := exists g, gradient f g.

  Lemma along_0 w : along w 0 = vzero.
  Proof. apply FunctionalExtensionality.functional_extensionality. intros k. unfold along, vzero. ring. Qed.

  Lemma gradient_const c : gradient (fun _ => c) (fun _ => 0).
  Proof.
    intros w. replace (Sum k < N, 0 * w k) with 0.
    - apply (is_derive_const (V := R_NormedModule)).
    - symmetry. apply rsum_zero. intros. ring.
  Qed.
  Lemma gradient_add f g df dg : gradient f df -> gradient g dg -> gradient (fun z => f z + g z) (fun k => df k + dg k).
  Proof.
    intros A B w. replace (Sum k < N, (df k + dg k) * w k) with ((Sum k < N, df k * w k) + (Sum k < N, dg k * w k)).
    - exact (is_derive_plus (fun s => f (along w s)) (fun s => g (along w s)) 0 _ _ (A w) (B w)).
    - rewrite <- rsum_plus. apply rsum_ext. intros. ring.
  Qed.
  Lemma gradient_mul f g df dg : gradient f df -> gradient g dg ->
    gradient (fun z => f z * g z) (fun k => df k * g vzero + f vzero * dg k).
  Proof.
    intros A B w.
    replace (Sum k < N, (df k * g vzero + f vzero * dg k) * w k)
      with ((Sum k < N, df k * w k) * g vzero + f vzero * (Sum k < N, dg k * w k)).
    - pose proof (is_derive_mult (fun s => f (along w s)) (fun s => g (along w s)) 0 _ _ (A w) (B w) Rmult_comm) as H.
      pose proof (along_0 w) as E. cbv beta in H. unfold along in H, E. rewrite E in H. exact H.
    - rewrite (Rmult_comm _ (g vzero)), <- !rsum_scal, <- rsum_plus. apply rsum_ext. intros. ring.
  Qed.
  Lemma gradient_chain phi d f df : gradient f df -> is_derive phi (f vzero) d -> gradient (fun z => phi (f z)) (fun k => d * df k).
  Proof.
    intros A B w. replace (Sum k < N, d * df k * w k) with ((Sum k < N, df k * w k) * d).
    - apply (is_derive_comp phi (fun s => f (along w s))); [rewrite along_0; exact B | exact (A w)].
    - rewrite Rmult_comm, <- rsum_scal. apply rsum_ext. intros. ring.
  Qed.
  Lemma gradient_near f g df : vnear (fun z => f z = g z) -> gradient f df -> gradient g df.
  Proof. intros E A w. exact (is_derive_ext_loc (fun s => f (along w s)) (fun s => g (along w s)) 0 _ (E w) (A w)). Qed.
  Lemma gradient_gt f df c : gradient f df -> c < f vzero -> vnear (fun z => c < f z).
  Proof.
    intros A H w. assert (Cn : continuous (fun s => f (along w s)) 0).
    { apply (ex_derive_continuous (fun s => f (along w s))). eexists. exact (A w). }
    apply (Cn (fun y => c < y)). apply open_gt. rewrite along_0. exact H.
  Qed.

  Definition linear_level : level.
  Proof.
    refine (class_level vec vzero vnear differentiable _ _ _ _ _ _ _ _ _ _).
    - intros P Q A B w. exact (filter_and _ _ (A w) (B w)).
    - intros P Q H A w. eapply filter_imp; [ | exact (A w)]. intros s. apply H.
    - intros w. apply filter_true.
    - intros P A. rewrite <- (along_0 vzero). exact (locally_singleton _ _ (A vzero)).
    - intros f g E [d D]. exists d. apply (gradient_near f); auto.
    - intros c. exists (fun _ => 0). apply gradient_const.
    - intros f g [d D] [e E]. eexists. apply gradient_add; eassumption.
    - intros f g [d D] [e E]. eexists. apply gradient_mul; eassumption.
    - intros phi phi' f [d D] L _. eexists. apply gradient_chain; [exact D | exact (locally_singleton _ _ L)].
    - intros f c [d D]. eapply gradient_gt; eauto.
  Defined.

  Lemma gradient_coord k c : (k < N)%nat -> gradient (fun z => c + z k) (fun j => if Nat.eqb j k then 1 else 0).
  Proof.
    intros Hk w. replace (Sum j < N, (if Nat.eqb j k then 1 else 0) * w j) with (w k).
    - unfold along. auto_derive; auto. ring.
    - symmetry. rewrite (rsum_ext _ _ (fun j => if Nat.eqb j k then w k else 0)).
      + rewrite (Sum_single N k); auto; [rewrite Nat.eqb_refl; auto | ]. intros j _ Hj. destruct (Nat.eqb_spec j k); congruence.
      + intros j _. destruct (Nat.eqb_spec j k) as [-> | ]; ring.
  Qed.
  Lemma linear_coord k c : (k < N)%nat -> rel (lT linear_level) (fun z : vec => c + z k) (Fin c).
  Proof.
    intros Hk. split.
    - change (Fin c = Fin (c + 0)). f_equal. ring.
    - eexists. apply gradient_coord; auto.
  Qed.
  Lemma linear_value f a : rel (lT linear_level) f a -> differentiable f.
  Proof. intros [_ H]. exact H. Qed.
End Linear.

(* ------------------------------------------------------------- symmetric mixed derivatives *)

Definition sym_near (Q : R * R -> Prop) : Prop :=
  locally 0 (fun y => locally 0 (fun x => Q (x, y))) /\ locally 0 (fun x => locally 0 (fun y => Q (x, y))).
Definition sym_good (f : R * R -> R) : Prop := exists g h m,
  locally 0 (fun y => is_derive (fun x => f (x, y)) 0 (g y)) /\
  locally 0 (fun x => is_derive (fun y => f (x, y)) 0 (h x)) /\
  is_derive g 0 m /\ is_derive h 0 m.

Lemma cont_near (F : R -> R) d (Q : R -> Prop) : is_derive F 0 d -> locally (F 0) Q -> locally 0 (fun x => Q (F x)).
Proof.
  intros D H. assert (C : continuous F 0) by (apply (ex_derive_continuous F); eexists; exact D). exact (C _ H).
Qed.

Lemma sym_chain_half (phi phi' : R -> R) c (F : R -> R -> R) g h0 m :
  locally 0 (fun y => is_derive (fun x => F x y) 0 (g y)) -> is_derive (fun y => F 0 y) 0 h0 -> is_derive g 0 m ->
  locally (F 0 0) (fun u => is_derive phi u (phi' u)) -> is_derive phi' (F 0 0) c ->
  locally 0 (fun y => is_derive (fun x => phi (F x y)) 0 (g y * phi' (F 0 y))) /\
  is_derive (fun y => g y * phi' (F 0 y)) 0 (m * phi' (F 0 0) + g 0 * (h0 * c)).
Proof.
  intros A B C D E. split.
  - eapply filter_imp; [ | exact (filter_and _ _ A (cont_near _ _ _ B D))]. intros y [H1 H2].
    exact (is_derive_comp phi (fun x => F x y) 0 _ _ H2 H1).
  - apply (is_derive_mult g (fun y => phi' (F 0 y)) 0); [exact C | | exact Rmult_comm].
    exact (is_derive_comp phi' (fun y => F 0 y) 0 _ _ E B).
Qed.
Lemma sym_mul_half (F G : R -> R -> R) g1 g2 h1 h2 m1 m2 :
  locally 0 (fun y => is_derive (fun x => F x y) 0 (g1 y)) -> is_derive (fun y => F 0 y) 0 h1 -> is_derive g1 0 m1 ->
  locally 0 (fun y => is_derive (fun x => G x y) 0 (g2 y)) -> is_derive (fun y => G 0 y) 0 h2 -> is_derive g2 0 m2 ->
  locally 0 (fun y => is_derive (fun x => F x y * G x y) 0 (g1 y * G 0 y + F 0 y * g2 y)) /\
  is_derive (fun y => g1 y * G 0 y + F 0 y * g2 y) 0 ((m1 * G 0 0 + g1 0 * h2) + (h1 * g2 0 + F 0 0 * m2)).
Proof.
  intros A1 B1 C1 A2 B2 C2. split.
  - eapply filter_imp; [ | exact (filter_and _ _ A1 A2)]. intros y [H1 H2].
    exact (is_derive_mult (fun x => F x y) (fun x => G x y) 0 _ _ H1 H2 Rmult_comm).
  - apply (is_derive_plus (fun y => g1 y * G 0 y) (fun y => F 0 y * g2 y) 0).
    + exact (is_derive_mult g1 (fun y => G 0 y) 0 _ _ C1 B2 Rmult_comm).
    + exact (is_derive_mult (fun y => F 0 y) g2 0 _ _ B1 C2 Rmult_comm).
Qed.

Definition symmetric_level : level.
Proof.
  refine (class_level (R * R) (0, 0) sym_near sym_good _ _ _ _ _ _ _ _ _ _).
  - intros P Q [A1 A2] [B1 B2]. split.
    + eapply filter_imp; [ | exact (filter_and _ _ A1 B1)]. intros y [C D]. exact (filter_and _ _ C D).
    + eapply filter_imp; [ | exact (filter_and _ _ A2 B2)]. intros y [C D]. exact (filter_and _ _ C D).
  - intros P Q H [A1 A2]. split.
    + eapply filter_imp; [ | exact A1]. intros y C. eapply filter_imp; [ | exact C]. intros x. apply H.
    + eapply filter_imp; [ | exact A2]. intros y C. eapply filter_imp; [ | exact C]. intros x. apply H.
  - split; apply filter_forall; intros; apply filter_true.
  - intros P [A _]. exact (locally_singleton _ _ (locally_singleton _ _ A)).
  - intros f g [E1 E2] (d & h & m & A & B & C & D). exists d, h, m. split; [ | split; [ | split; [exact C | exact D]]].
    + eapply filter_imp; [ | exact (filter_and _ _ E1 A)]. intros y [H1 H2].
      exact (is_derive_ext_loc (fun x => f (x, y)) (fun x => g (x, y)) 0 _ H1 H2).
    + eapply filter_imp; [ | exact (filter_and _ _ E2 B)]. intros x [H1 H2].
      exact (is_derive_ext_loc (fun y => f (x, y)) (fun y => g (x, y)) 0 _ H1 H2).
  - intros c. exists (fun _ => 0), (fun _ => 0), 0. split; [ | split; [ | split]]; try (apply filter_forall; intros); apply (is_derive_const (V := R_NormedModule)).
  - intros f g (g1 & h1 & m1 & A1 & B1 & C1 & D1) (g2 & h2 & m2 & A2 & B2 & C2 & D2).
    exists (fun y => g1 y + g2 y), (fun x => h1 x + h2 x), (m1 + m2). split; [ | split; [ | split]].
    + eapply filter_imp; [ | exact (filter_and _ _ A1 A2)]. intros y [H1 H2].
      exact (is_derive_plus (fun x => f (x, y)) (fun x => g (x, y)) 0 _ _ H1 H2).
    + eapply filter_imp; [ | exact (filter_and _ _ B1 B2)]. intros x [H1 H2].
      exact (is_derive_plus (fun y => f (x, y)) (fun y => g (x, y)) 0 _ _ H1 H2).
    + exact (is_derive_plus g1 g2 0 _ _ C1 C2).
    + exact (is_derive_plus h1 h2 0 _ _ D1 D2).
  - intros f g (g1 & h1 & m1 & A1 & B1 & C1 & D1) (g2 & h2 & m2 & A2 & B2 & C2 & D2).
    pose proof (locally_singleton _ _ A1) as A1'. pose proof (locally_singleton _ _ A2) as A2'.
    pose proof (locally_singleton _ _ B1) as B1'. pose proof (locally_singleton _ _ B2) as B2'.
    destruct (sym_mul_half (fun x y => f (x, y)) (fun x y => g (x, y)) _ _ _ _ _ _ A1 B1' C1 A2 B2' C2) as [P1 P2].
    destruct (sym_mul_half (fun y x => f (x, y)) (fun y x => g (x, y)) _ _ _ _ _ _ B1 A1' D1 B2 A2' D2) as [Q1 Q2].
    do 3 eexists. split; [exact P1 | split; [exact Q1 | split; [exact P2 | ]]].
    match type of Q2 with is_derive _ _ ?r => match goal with |- is_derive _ _ ?q => replace q with r by ring end end. exact Q2.
  - intros phi phi' f (g & h & m & A & B & C & D) L [c E].
    pose proof (locally_singleton _ _ A) as A'. pose proof (locally_singleton _ _ B) as B'.
    destruct (sym_chain_half phi phi' c (fun x y => f (x, y)) g (h 0) m A B' C L E) as [P1 P2].
    destruct (sym_chain_half phi phi' c (fun y x => f (x, y)) h (g 0) m B A' D L E) as [Q1 Q2].
    do 3 eexists. split; [exact P1 | split; [exact Q1 | split; [exact P2 | ]]].
    match type of Q2 with is_derive _ _ ?r => match goal with |- is_derive _ _ ?q => replace q with r by ring end end. exact Q2.
  - intros f c (g & h & m & A & B & C & D) L.
    pose proof (locally_singleton _ _ A) as A'. pose proof (locally_singleton _ _ B) as B'. split.
    + eapply filter_imp; [ | exact (filter_and _ _ A (cont_near _ _ _ B' (open_gt c _ L)))]. intros y [H1 H2].
      exact (cont_near _ _ _ H1 (open_gt c _ H2)).
    + eapply filter_imp; [ | exact (filter_and _ _ B (cont_near _ _ _ A' (open_gt c _ L)))]. intros x [H1 H2].
      exact (cont_near _ _ _ H1 (open_gt c _ H2)).
Defined.

Lemma sym_affine c a b : rel (lT symmetric_level) (fun z : R * R => c + (a * fst z + b * snd z)) (Fin c).
Proof.
  split.
  - change (Fin c = Fin (c + (a * 0 + b * 0))). f_equal. ring.
  - exists (fun _ => a), (fun _ => b), 0. split; [ | split; [ | split]].
    + apply filter_forall. intros y. cbn [fst snd]. auto_derive; auto. ring.
    + apply filter_forall. intros y. cbn [fst snd]. auto_derive; auto. ring.
    + apply (is_derive_const (V := R_NormedModule)).
    + apply (is_derive_const (V := R_NormedModule)).
Qed.
