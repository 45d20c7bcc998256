(** C46, C47: thermodynamic consistency of the derivatives obtained with dual numbers. *)
From Coq Require Import ZArith QArith Reals Lra Lia String List Bool.
From Coquelicot Require Import Coquelicot.
From Verif Require Import Num RNum RSum Tables M_Params F_Params M_Eos Spec F_Spec F_SpecPolar F_SpecAssoc
  F_Contrib F_Cross F_Total Samples F_Transfer XNum F_Transfer2 F_Transfer3 DNum F_Level F_Class P_Select P_Finite2 P_Dual P_Dual2 F_LevelRes F_Gauss.
Import ListNotations.
Local Open Scope R_scope.
Set Bullet Behavior "Strict Subproofs".

(* ---------------------------------------------------------------------- specification *)

(** A direction assigns a rate of change to temperature (entry 0), volume (entry 1) and the mole
    numbers (entries 2, 3, ...).  [eval_dual n ... ds] evaluates the residual Helmholtz energy with
    n-fold dual numbers, the k-th infinitesimal being seeded with the k-th direction: Dual64 for
    n = 1, HyperDual64 for n = 2. *)
Definition eval_dual (n : nat) (lu : lu_solver (lK (dual n))) (p : params RNum) (o : options RNum)
    (t v : R) (moles : list R) (ds : list (nat -> R)) : option (dnum n) :=
  residual lu (with_options (plift (emb (TRn n)) p) (F_Transfer2.lift_options (emb (TRn n)) o))
    (@state_new (lK (dual n)) (seed n t (map (fun d => d 0%nat) ds)) (seed n v (map (fun d => d 1%nat) ds))
      (map (fun i => seed n (nth i moles 0) (map (fun d => d (S (S i))) ds)) (seq 0 (List.length moles)))).
(** number of coordinates *)
Definition dims (moles : list R) : nat := S (S (List.length moles)).
(** unit direction *)
Definition unit_dir (k : nat) : nat -> R := fun j => if Nat.eqb j k then 1 else 0.
(** direction of growing volume and amount at constant composition *)
Definition scaling (v : R) (moles : list R) : nat -> R :=
  fun k => match k with 0%nat => 0 | 1%nat => v | S (S i) => nth i moles 0 end.

(* ------------------------------------------------------------------------------- proofs *)

Lemma map_nth_seq (l : list R) : map (fun i => nth i l 0) (seq 0 (List.length l)) = l.
Proof.
  induction l as [ | a l IH]; [reflexivity | ]. cbn [List.length seq map nth]. f_equal.
  rewrite <- seq_shift, map_map. exact IH.
Qed.
Lemma Sum_unit N k (f : nat -> R) : (k < N)%nat -> (Sum j < N, f j * unit_dir k j) = f k.
Proof.
  intros H. rewrite (Sum_single N k); auto.
  - unfold unit_dir. rewrite Nat.eqb_refl. ring.
  - intros j _ E. unfold unit_dir. destruct (Nat.eqb_spec j k); [congruence | ring].
Qed.
Lemma Sum_scaling v moles (f : nat -> R) : (Sum k < dims moles, f k * scaling v moles k)
  = v * f 1%nat + Sum i < List.length moles, nth i moles 0 * f (S (S i)).
Proof.
  unfold dims. cbn [seq rsum]. rewrite <- !seq_shift, !rsum_map.
  rewrite (rsum_ext _ (fun i => f (S (S i)) * scaling v moles (S (S i))) (fun i => nth i moles 0 * f (S (S i)))).
  - cbn [scaling]. ring.
  - intros i _. cbn [scaling]. ring.
Qed.
Lemma Derive_is (f : R -> R) x d : is_derive f x d -> Derive f x = d.
Proof. exact (is_derive_unique f x d). Qed.

Lemma aff_shift m r ds z : aff m r ds z = r + aff m 0 ds z.
Proof. revert ds. induction m as [ | m IH]; intros ds; cbn [aff]; [ring | ]. rewrite IH. ring. Qed.

Section Consistency.
  Variables (prs : list (pure_record RNum)) (bin : list (list R)) (p : params RNum).
  Hypothesis Hp : from_records prs bin = Some p.
  Hypothesis Hph : phys p.
  Variables (t v : R) (moles : list R).
  Hypothesis PS : phys_state p t v moles.
  Variable o : options RNum.
  Hypothesis Rg : regular_point p t v moles o.
  Variable lu : lu_solver RNum.
  Notation n := (List.length moles).
  Notation N := (dims moles).

  Let st (w : vec) : state RNum :=
    @state_new RNum (t + w 0%nat) (v + w 1%nat) (map (fun i => nth i moles 0 + w (S (S i))) (seq 0 n)).
  (** the residual Helmholtz energy at the state displaced by w *)
  Definition energy (w : vec) : R := match residual lu (with_options p o) (st w) with Some r => r | None => 0 end.
  Lemma energy_some w : residual lu (with_options p o) (st w) = Some (energy w).
  Proof.
    unfold energy. destruct (residual_some p lu o (st w)) as (r & E); [apply Rg | ]. rewrite E. reflexivity.
  Qed.
  Definition plus (x : R) (d : vec) (y : R) (e : vec) : vec := fun k => d k * x + e k * y.
  Definition grad (d : vec) : R := Derive (fun x => energy (along d x)) 0.
  Definition mixed (d e : vec) : R := Derive (fun y => Derive (fun x => energy (plus x d y e)) 0) 0.

  Lemma energy_ext w w' : (forall k, (k < N)%nat -> w k = w' k) -> energy w = energy w'.
  Proof.
    intros H. unfold energy, st. rewrite !H by (unfold dims; lia).
    replace (map (fun i => nth i moles 0 + w (S (S i))) (seq 0 n)) with (map (fun i => nth i moles 0 + w' (S (S i))) (seq 0 n)); [reflexivity | ].
    apply map_ext_in. intros i Hi. apply in_seq in Hi. rewrite H by (unfold dims; lia). reflexivity.
  Qed.

  (** path functions at any level *)
  Let path_level (L : level) (c : nat -> lP L -> R) (cd : nat -> R -> car (lK L)) (Sep : separating L)
    (Hc : forall k r, (k < N)%nat -> rel (lT L) (fun z => r + c k z) (cd k r))
    (Hz : forall k, c k (lz L) = 0) (lu2 : lu_solver (lK L)) :
    exists a, residual lu2 (with_options (plift (emb (lT L)) p) (F_Transfer2.lift_options (emb (lT L)) o))
       (@state_new (lK L) (cd 0%nat t) (cd 1%nat v) (map (fun i => cd (S (S i)) (nth i moles 0)) (seq 0 n))) = Some a /\
      rel (lT L) (fun z => energy (fun k => c k z)) a.
  Proof.
    destruct (level_residual prs bin p Hp Hph t v moles PS L Sep
      (fun z => t + c 0%nat z) (fun z => v + c 1%nat z) (fun z => map (fun i => nth i moles 0 + c (S (S i)) z) (seq 0 n))
      (cd 0%nat t) (cd 1%nat v) (map (fun i => cd (S (S i)) (nth i moles 0)) (seq 0 n))) with (lu := lu) (lu2 := lu2) (o := o) as (f & a & E1 & E2 & E3).
    - apply Hc. unfold dims; lia.
    - apply Hc. unfold dims; lia.
    - exists (map (fun i z => nth i moles 0 + c (S (S i)) z) (seq 0 n)). split.
      + intros z. rewrite map_map. reflexivity.
      + assert (G : forall l, (forall i, In i l -> (i < n)%nat) ->
          Forall2 (rel (lT L)) (map (fun i z => nth i moles 0 + c (S (S i)) z) l) (map (fun i => cd (S (S i)) (nth i moles 0)) l)).
        { induction l as [ | i l IH]; intros Hl; cbn [map]; constructor.
          - apply Hc. specialize (Hl i (or_introl eq_refl)). unfold dims. lia.
          - apply IH. intros j Hj. apply Hl. right; auto. }
        apply G. intros i Hi. apply in_seq in Hi. lia.
    - rewrite Hz. ring.
    - rewrite Hz. ring.
    - etransitivity; [ | apply map_nth_seq]. apply map_ext. intros i. rewrite Hz. ring.
    - exact Rg.
    - exists a. split; [exact E2 | ]. eapply (rel_near L); [ | exact E3].
      eapply (near_imp L); [ | apply (near_true L)]. intros z _.
      pose proof (energy_some (fun k => c k z)) as Es. unfold st in Es. rewrite E1 in Es. apply Some_inj in Es. exact Es.
  Qed.

  (** linear in the direction *)
  Lemma energy_gradient : exists g, gradient N energy g.
  Proof.
    destruct (path_level (linear_level N) (fun k (z : vec) => z k) (fun _ r => Fin r) (separating_linear N)) with (lu2 := fun (_ : list (list xr)) (_ : list xr) => @None (list xr)) as (a & _ & H).
    - intros k r Hk. apply (linear_coord N k r Hk).
    - reflexivity.
    - destruct H as [_ [g G]]. exists g. exact G.
  Qed.

  Let E0 := energy vzero.
  Lemma plus_along d e x : energy (plus x d 0 e) = energy (along d x).
  Proof. apply energy_ext. intros k _. unfold plus, along. ring. Qed.
  Lemma plus_along_r d e y : energy (plus 0 d y e) = energy (along e y).
  Proof. apply energy_ext. intros k _. unfold plus, along. ring. Qed.

  Lemma grad_derive d : is_derive (fun x => energy (along d x)) 0 (grad d).
  Proof. destruct energy_gradient as [g G]. apply Derive_correct. eexists. exact (G d). Qed.
  Lemma grad_linear d : grad d = Sum k < N, grad (unit_dir k) * d k.
  Proof.
    destruct energy_gradient as [g G].
    assert (E : forall e, grad e = Sum k < N, g k * e k) by (intros e; exact (Derive_is _ _ _ (G e))). rewrite (E d).
    apply rsum_ext. intros k Hk. apply in_seq in Hk. rewrite (E (unit_dir k)), Sum_unit by lia. reflexivity.
  Qed.

  (** dual evaluation in one direction followed by any other *)
  Lemma mixed_gradient d : exists h G, gradient N G h /\
    vnear (fun w => is_derive (fun x => energy (fun k => d k * x + w k)) 0 (G w)).
  Proof.
    destruct (path_level (next (linear_level N)) (fun k (z : R * vec) => d k * fst z + snd z k) (fun k r => (Fin r, Fin (d k)))
      (separating_next _))
      with (lu2 := fun (_ : list (list (xr * xr))) (_ : list (xr * xr)) => @None (list (xr * xr))) as (a & _ & H).
    - intros k r Hk. split.
      + eapply (rel_near (linear_level N)); [ | apply (linear_coord N k r Hk)]. intros w. apply filter_forall. intros s. cbn [fst snd]. ring.
      + exists (fun _ => d k). split; [apply (tr_emb _ _ (lT (linear_level N))) | ].
        intros w. apply filter_forall. intros s. cbn [fst snd]. auto_derive; auto. ring.
    - intros k. cbn [lz next z' fst snd]. change (snd (0, vzero) k) with 0. cbn. unfold vzero. ring.
    - destruct H as (_ & G & [_ [h Hh]] & D). exists h, G. split; [exact Hh | exact D].
  Qed.
  Lemma mixed_derive d e : exists g, locally 0 (fun y => is_derive (fun x => energy (plus x d y e)) 0 (g y)) /\ is_derive g 0 (mixed d e).
  Proof.
    destruct (mixed_gradient d) as (h & G & A & B). exists (fun y => G (along e y)).
    assert (D : locally 0 (fun y => is_derive (fun x => energy (plus x d y e)) 0 (G (along e y)))).
    { eapply filter_imp; [ | exact (B e)]. intros y H. eapply is_derive_ext; [ | exact H]. intros x. cbv beta.
      apply energy_ext. intros k _. unfold plus, along. change (AbsRing.sort R_AbsRing) with R in *. ring. }
    split; [exact D | ].
    assert (E : mixed d e = Sum k < N, h k * e k).
    { unfold mixed. apply is_derive_unique. eapply is_derive_ext_loc; [ | exact (A e)].
      eapply filter_imp; [ | exact D]. intros y Hy. symmetry. exact (is_derive_unique _ _ _ Hy). }
    rewrite E. exact (A e).
  Qed.
  Lemma mixed_linear d e : mixed d e = Sum k < N, mixed d (unit_dir k) * e k.
  Proof.
    destruct (mixed_gradient d) as (h & G & A & B).
    assert (E : forall e, mixed d e = Sum k < N, h k * e k).
    { intros f. unfold mixed. apply is_derive_unique. eapply is_derive_ext_loc; [ | exact (A f)].
      eapply filter_imp; [ | exact (B f)]. intros y H. symmetry. apply is_derive_unique. eapply is_derive_ext; [ | exact H]. intros x. cbv beta.
      apply energy_ext. intros k _. unfold plus, along. change (AbsRing.sort R_AbsRing) with R in *. ring. }
    rewrite (E e). apply rsum_ext. intros k Hk. apply in_seq in Hk. rewrite (E (unit_dir k)), Sum_unit by lia. reflexivity.
  Qed.
  Lemma mixed_sym d e : mixed d e = mixed e d.
  Proof.
    destruct (path_level symmetric_level (fun k (z : R * R) => d k * fst z + e k * snd z) (fun _ r => Fin r) separating_symmetric)
      with (lu2 := fun (_ : list (list xr)) (_ : list xr) => @None (list xr)) as (a & _ & H).
    - intros k r Hk. apply (sym_affine r (d k) (e k)).
    - intros k. cbn. ring.
    - destruct H as [_ (g & h & m & A & B & C & D)].
      assert (E1 : mixed d e = m).
      { unfold mixed. apply is_derive_unique. eapply is_derive_ext_loc; [ | exact C]. eapply filter_imp; [ | exact A].
        intros y Hy. symmetry. exact (is_derive_unique _ _ _ Hy). }
      assert (E2 : mixed e d = m).
      { unfold mixed. apply is_derive_unique. eapply is_derive_ext_loc; [ | exact D]. eapply filter_imp; [ | exact B].
        intros y Hy. symmetry. apply is_derive_unique. eapply is_derive_ext; [ | exact Hy]. intros x. cbv beta. cbn [fst snd].
        apply energy_ext. intros k _. unfold plus. change (AbsRing.sort R_AbsRing) with R in *. ring. }
      congruence.
  Qed.

  (** extensivity along the scaling direction *)
  Notation sc := (scaling v moles).
  Lemma energy_scaled (d : vec) y x : 0 < 1 + y ->
    energy (plus x d y sc) = (1 + y) * energy (fun k => match k with 0%nat => d 0%nat * x | _ => d k * x / (1 + y) end).
  Proof.
    intros Hy. set (w := fun k => match k with 0%nat => d 0%nat * x | _ => d k * x / (1 + y) end).
    pose proof (C02_residual_extensive lu p o (t + w 0%nat) (v + w 1%nat) (map (fun i => nth i moles 0 + w (S (S i))) (seq 0 n)) (1 + y) Hy) as H.
    pose proof (energy_some w) as Ew. unfold st in Ew. rewrite Ew in H. cbn [option_map] in H.
    pose proof (energy_some (plus x d y sc)) as Es. unfold st in Es.
    assert (E : Some ((1 + y) * energy w) = Some (energy (plus x d y sc))); [ | apply Some_inj in E; congruence].
    rewrite <- H, <- Es. f_equal. f_equal.
    - unfold plus, scaling, w. ring.
    - unfold plus, scaling, w. field. lra.
    - rewrite map_map. apply map_ext. intros i. unfold plus, scaling, w. field. lra.
  Qed.
  Lemma pos_near : locally 0 (fun y => 0 < 1 + y).
  Proof. assert (L : -1 < 0) by lra. eapply filter_imp; [ | exact (open_gt (-1) 0 L)]. intros y Hy. cbv beta in Hy. lra. Qed.

  Lemma grad_scaling : grad sc = energy vzero.
  Proof.
    unfold grad. apply is_derive_unique.
    apply (is_derive_ext_loc (fun y => (1 + y) * energy vzero)).
    - eapply filter_imp; [ | exact pos_near]. intros y Hy. rewrite <- (plus_along_r vzero sc y). rewrite energy_scaled by exact Hy. f_equal.
      apply energy_ext. intros k _. unfold vzero. destruct k as [ | k]; [ring | field; lra].
    - auto_derive; auto. ring.
  Qed.
  Lemma mixed_scaling d : mixed d sc = grad (fun k => match k with 0%nat => d 0%nat | _ => 0 end).
  Proof.
    set (d0 := fun k => match k with 0%nat => d 0%nat | _ => 0 end).
    set (d1 := fun k => match k with 0%nat => 0 | _ => d k end).
    unfold mixed. apply is_derive_unique.
    apply (is_derive_ext_loc (fun y => (1 + y) * grad d0 + grad d1)).
    - eapply filter_imp; [ | exact pos_near]. intros y Hy. symmetry. apply is_derive_unique.
      set (dy := fun k => match k with 0%nat => d 0%nat | _ => d k / (1 + y) end).
      apply (is_derive_ext (fun x => (1 + y) * energy (along dy x))).
      + intros x. rewrite energy_scaled by exact Hy. f_equal. apply energy_ext. intros k _. unfold along, dy.
        change (AbsRing.sort R_AbsRing) with R in *. destruct k as [ | k]; [ring | field; lra].
      + replace ((1 + y) * grad d0 + grad d1) with ((1 + y) * grad dy).
        * apply (is_derive_scal (fun x => energy (along dy x)) 0 (1 + y)). apply grad_derive.
        * rewrite (grad_linear dy), (grad_linear d0), (grad_linear d1). rewrite <- !rsum_scal, <- rsum_plus. apply rsum_ext.
          intros k _. unfold dy, d0, d1. destruct k as [ | k]; [ring | field; lra].
    - auto_derive; auto. ring.
  Qed.

  (** the dual evaluations *)
  Lemma moles_fst (ds : list vec) : map fst (map (fun i => (nth i moles 0, map (fun d : vec => d (S (S i))) ds)) (seq 0 n)) = moles.
  Proof. rewrite map_map. cbn [fst]. apply map_nth_seq. Qed.
  Lemma eval_represents m lu2 ds : exists a, eval_dual m lu2 p o t v moles ds = Some a /\
    represents m (fun z => energy (fun k => aff m 0 (map (fun d => d k) ds) z)) a.
  Proof.
    destruct (path_level (dual m) (fun k z => aff m 0 (map (fun d : vec => d k) ds) z) (fun k r => seed m r (map (fun d : vec => d k) ds)))
      with (lu2 := lu2) as (a & A & B).
    - apply separating_dual.
    - intros k r _. eapply (rel_near (dual m)); [ | apply rel_aff]. eapply (near_imp (dual m)); [ | apply near_true].
      intros z _. apply aff_shift.
    - intros k. apply aff_base.
    - exists a. split; [exact A | apply rel_represents; exact B].
  Qed.

  Lemma eval_first lu2 d : eval_dual 1 lu2 p o t v moles [d] = Some (Fin (energy vzero), Fin (grad d)).
  Proof.
    destruct (eval_represents 1 lu2 [d]) as (a & -> & H). apply first_order in H. destruct H as (r & -> & D). do 3 f_equal.
    - apply energy_ext. intros k _. cbn. unfold vzero. ring.
    - symmetry. unfold grad. apply is_derive_unique. eapply is_derive_ext; [ | exact D]. intros x. cbv beta. apply energy_ext.
      intros k _. cbn. unfold along. change (AbsRing.sort R_AbsRing) with R in *. ring.
  Qed.
  Lemma eval_second lu2 d e : eval_dual 2 lu2 p o t v moles [d; e]
    = Some ((Fin (energy vzero), Fin (grad e)), (Fin (grad d), Fin (mixed d e))).
  Proof.
    destruct (eval_represents 2 lu2 [d; e]) as (a & -> & H). apply second_order in H.
    destruct H as (r1 & r2 & r12 & g & -> & D1 & D2 & D3 & D4). do 3 f_equal; f_equal.
    - apply energy_ext. intros k _. cbn. unfold vzero. ring.
    - symmetry. unfold grad. apply is_derive_unique. eapply is_derive_ext; [ | exact D2]. intros x. cbv beta. apply energy_ext.
      intros k _. cbn. unfold along. change (AbsRing.sort R_AbsRing) with R in *. ring.
    - symmetry. unfold grad. apply is_derive_unique. eapply is_derive_ext; [ | exact D1]. intros x. cbv beta. apply energy_ext.
      intros k _. cbn. unfold along. change (AbsRing.sort R_AbsRing) with R in *. ring.
    - symmetry. unfold mixed. apply is_derive_unique. eapply is_derive_ext_loc; [ | exact D4]. eapply filter_imp; [ | exact D3].
      intros y Hy. symmetry. apply is_derive_unique. eapply is_derive_ext; [ | exact Hy]. intros x. cbv beta. apply energy_ext.
      intros k _. cbn. unfold plus. change (AbsRing.sort R_AbsRing) with R in *. ring.
  Qed.
  Lemma energy_base : residual lu (with_options p o) (@state_new RNum t v moles) = Some (energy vzero).
  Proof.
    rewrite <- energy_some. unfold st, vzero. rewrite !Rplus_0_r. do 2 f_equal.
    rewrite <- (map_nth_seq moles) at 1. apply map_ext. intros i. ring.
  Qed.
End Consistency.

(* ----------------------------------------------------------------------------- theorems *)

Section Theorems.
  Variables (prs : list (pure_record RNum)) (bin : list (list R)) (p : params RNum).
  Hypothesis Hp : from_records prs bin = Some p.
  Hypothesis Hph : phys p.
  Variables (t v : R) (moles : list R).
  Hypothesis PS : phys_state p t v moles.
  Variable o : options RNum.
  Hypothesis Rg : regular_point p t v moles o.
  Variables (lu : lu_solver RNum) (lu1 : lu_solver (lK (dual 1))) (lu2 : lu_solver (lK (dual 2))).
  Notation N := (dims moles).
  Notation ev1 d := (eval_dual 1 lu1 p o t v moles [d]).
  Notation ev2 d e := (eval_dual 2 lu2 p o t v moles [d; e]).

  (** First law: the derivative in any direction is the sum of the partial derivatives (entropy,
      pressure, chemical potentials: unit directions) times the rates. *)
  Theorem C46_total_differential : exists a g,
    residual lu (with_options p o) (@state_new RNum t v moles) = Some a /\
    (forall k, (k < N)%nat -> ev1 (unit_dir k) = Some (Fin a, Fin (g k))) /\
    forall d, ev1 d = Some (Fin a, Fin (Sum k < N, g k * d k)).
  Proof.
    pose proof (eval_first prs bin p Hp Hph t v moles PS o Rg lu lu1) as E.
    exists (energy p t v moles o lu vzero), (fun k => grad p t v moles o lu (unit_dir k)). split; [ | split].
    - apply energy_base. exact Rg.
    - intros k _. apply E.
    - intros d. rewrite E. rewrite (grad_linear prs bin p Hp Hph t v moles PS o Rg lu d). reflexivity.
  Qed.

  (** Euler: A = V dA/dV + sum n_i dA/dn_i *)
  Theorem C46_euler a g : (forall k, (k < N)%nat -> ev1 (unit_dir k) = Some (Fin a, Fin (g k))) ->
    a = v * g 1%nat + Sum i < List.length moles, nth i moles 0 * g (S (S i)).
  Proof.
    intros H. pose proof (eval_first prs bin p Hp Hph t v moles PS o Rg lu lu1) as E.
    assert (Ea : a = energy p t v moles o lu vzero /\ forall k, (k < N)%nat -> g k = grad p t v moles o lu (unit_dir k)).
    { split; [ | intros k Hk]; [specialize (H 0%nat ltac:(unfold dims; lia)) | specialize (H k Hk)]; rewrite E in H; apply Some_inj in H; congruence. }
    destruct Ea as [-> Eg].
    rewrite <- (grad_scaling p t v moles o Rg lu), (grad_linear prs bin p Hp Hph t v moles PS o Rg lu).
    rewrite (rsum_ext _ _ (fun k => g k * scaling v moles k)).
    - apply Sum_scaling.
    - intros k Hk. apply in_seq in Hk. rewrite Eg by lia. reflexivity.
  Qed.

  (** HyperDual64 evaluations: one symmetric matrix of second derivatives serves all directions *)
  Theorem C47_second_derivatives : exists a g H,
    residual lu (with_options p o) (@state_new RNum t v moles) = Some a /\
    (forall k l, H k l = H l k) /\
    forall d e, ev2 d e = Some ((Fin a, Fin (Sum k < N, g k * e k)),
      (Fin (Sum k < N, g k * d k), Fin (Sum k < N, Sum l < N, H k l * d k * e l))).
  Proof.
    pose proof (eval_second prs bin p Hp Hph t v moles PS o Rg lu lu2) as E.
    pose proof (grad_linear prs bin p Hp Hph t v moles PS o Rg lu) as G.
    pose proof (mixed_linear prs bin p Hp Hph t v moles PS o Rg lu) as B.
    pose proof (mixed_sym prs bin p Hp Hph t v moles PS o Rg lu) as S.
    exists (energy p t v moles o lu vzero), (fun k => grad p t v moles o lu (unit_dir k)),
      (fun k l => mixed p t v moles o lu (unit_dir k) (unit_dir l)). split; [ | split].
    - apply energy_base. exact Rg.
    - intros k l. apply S.
    - intros d e. rewrite E, (G d), (G e), S, (B e d). do 3 f_equal. 
      f_equal. apply rsum_ext. intros k _. rewrite (S e (unit_dir k)), (B (unit_dir k) e).
      rewrite Rmult_comm, <- rsum_scal. apply rsum_ext. intros l _. ring.
  Qed.

  (** Maxwell relations: exchanging the directions of a HyperDual64 evaluation exchanges the
      first-order parts and leaves the mixed part unchanged. *)
  Theorem C47_maxwell d e : exists a ad ae ade,
    ev2 d e = Some ((Fin a, Fin ae), (Fin ad, Fin ade)) /\ ev2 e d = Some ((Fin a, Fin ad), (Fin ae, Fin ade)).
  Proof.
    pose proof (eval_second prs bin p Hp Hph t v moles PS o Rg lu lu2) as E.
    do 4 eexists. split; [apply E | ]. rewrite E. rewrite (mixed_sym prs bin p Hp Hph t v moles PS o Rg lu e d). reflexivity.
  Qed.

  (** Gibbs-Duhem: the derivatives with respect to volume and mole numbers do not change when the
      system grows at constant composition; the temperature derivative grows in proportion. *)
  Theorem C46_gibbs_duhem H : 
    (forall k l, (k < N)%nat -> (l < N)%nat -> exists a b c, ev2 (unit_dir k) (unit_dir l) = Some ((a, b), (c, Fin (H k l)))) ->
    forall k, (k < N)%nat -> exists a s, ev1 (unit_dir 0) = Some (a, Fin s) /\
      v * H k 1%nat + (Sum i < List.length moles, nth i moles 0 * H k (S (S i))) = if Nat.eqb k 0 then s else 0.
  Proof.
    intros HH k Hk. pose proof (eval_second prs bin p Hp Hph t v moles PS o Rg lu lu2) as E.
    pose proof (eval_first prs bin p Hp Hph t v moles PS o Rg lu lu1) as E1.
    do 2 eexists. split; [apply E1 | ].
    assert (Eh : forall l, (l < N)%nat -> H k l = mixed p t v moles o lu (unit_dir k) (unit_dir l)).
    { intros l Hl. destruct (HH k l Hk Hl) as (a & b & c & F). rewrite E in F. apply Some_inj in F. congruence. }
    transitivity (mixed p t v moles o lu (unit_dir k) (scaling v moles)).
    - rewrite (mixed_linear prs bin p Hp Hph t v moles PS o Rg lu).
      transitivity (Sum l < N, H k l * scaling v moles l).
      + symmetry. apply (Sum_scaling v moles (H k)).
      + apply rsum_ext. intros l Hl. apply in_seq in Hl. rewrite Eh by lia. reflexivity.
    - rewrite (mixed_scaling prs bin p Hp Hph t v moles PS o Rg lu).
      rewrite (grad_linear prs bin p Hp Hph t v moles PS o Rg lu).
      destruct (Nat.eqb_spec k 0) as [-> | Nk].
      + rewrite (grad_linear prs bin p Hp Hph t v moles PS o Rg lu (unit_dir 0)). apply rsum_ext. intros l _. f_equal.
        destruct l; reflexivity.
      + apply rsum_zero. intros l _. destruct l as [ | l]; [ | ring].
        replace (unit_dir k 0) with 0 by (destruct k; [congruence | reflexivity]). ring.
  Qed.
End Theorems.

(* -------------------------------------------------------------------------------- cases *)

(** dimethyl ether + carbon dioxide + water, a liquid at 350 K: entropy, pressure and three
    chemical potentials; ten second derivatives *)
Example C46_case lu1 lu2 : exists a g H,
  (forall d, eval_dual 1 lu1 sample default_options 350 260 [1; 2; 3] [d] = Some (Fin a, Fin (Sum k < 5, g k * d k))) /\
  a = 260 * g 1%nat + (1 * g 2%nat + 2 * g 3%nat + 3 * g 4%nat) /\
  (forall d e, exists b c, eval_dual 2 lu2 sample default_options 350 260 [1; 2; 3] [d; e]
     = Some ((Fin a, b), (c, Fin (Sum k < 5, Sum l < 5, H k l * d k * e l)))) /\
  (forall k l, H k l = H l k) /\
  260 * H 1%nat 1%nat + (1 * H 1%nat 2%nat + 2 * H 1%nat 3%nat + 3 * H 1%nat 4%nat) = 0 /\
  260 * H 0%nat 1%nat + (1 * H 0%nat 2%nat + 2 * H 0%nat 3%nat + 3 * H 0%nat 4%nat) = g 0%nat.
Proof.
  pose proof (sample_regular default_options) as Rg.
  destruct (C46_total_differential _ _ _ sample_ok sample_phys 350 260 [1; 2; 3] sample_liquid _ Rg gauss_lu lu1) as (a & g & E1 & E2 & E3).
  destruct (C47_second_derivatives _ _ _ sample_ok sample_phys 350 260 [1; 2; 3] sample_liquid _ Rg gauss_lu lu2) as (a' & g' & H & F1 & F2 & F3).
  change (dims [1; 2; 3]) with 5%nat in *.
  rewrite E1 in F1. apply Some_inj in F1. subst a'.
  pose proof (C46_euler _ _ _ sample_ok sample_phys 350 260 [1; 2; 3] sample_liquid _ Rg gauss_lu lu1 a g E2) as Eu.
  assert (HU : forall k l, (k < 5)%nat -> (l < 5)%nat -> (Sum i < 5, Sum j < 5, H i j * unit_dir k i * unit_dir l j) = H k l).
  { intros k l Hk Hl. rewrite (rsum_ext _ _ (fun i => H i l * unit_dir k i)).
    - apply (Sum_unit 5 k (fun i => H i l)); auto.
    - intros i _. apply (Sum_unit 5 l (fun j => H i j * unit_dir k i)); auto. }
  assert (HH : forall k l, (k < 5)%nat -> (l < 5)%nat -> exists b c d,
     eval_dual 2 lu2 sample default_options 350 260 [1; 2; 3] [unit_dir k; unit_dir l] = Some ((b, c), (d, Fin (H k l)))).
  { intros k l Hk Hl. rewrite F3, HU by auto. eauto. }
  pose proof (C46_gibbs_duhem _ _ _ sample_ok sample_phys 350 260 [1; 2; 3] sample_liquid _ Rg gauss_lu lu1 lu2 H HH) as Gd.
  change (dims [1; 2; 3]) with 5%nat in Gd.
  exists a, g, H. split; [exact E3 | split; [ | split; [ | split; [exact F2 | split]]]].
  - cbn [List.length seq rsum nth] in Eu. rewrite Eu at 1. ring.
  - intros d e. rewrite F3. eauto.
  - destruct (Gd 1%nat ltac:(lia)) as (b & s & _ & G). cbn [List.length seq rsum nth Nat.eqb] in G. rewrite <- G. ring.
  - destruct (Gd 0%nat ltac:(lia)) as (b & s & G0 & G). cbn [List.length seq rsum nth Nat.eqb] in G.
    rewrite E2 in G0 by lia. apply Some_inj in G0. replace (g 0%nat) with s by congruence. rewrite <- G. ring.
Qed.

Print Assumptions C46_total_differential.
Print Assumptions C46_euler.
Print Assumptions C46_gibbs_duhem.
Print Assumptions C47_second_derivatives.
Print Assumptions C47_maxwell.
