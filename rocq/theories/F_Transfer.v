(** Transfer between the evaluation over the reals, as a function of a parameter x, and one
    evaluation over another number structure at the point x0 of the parameter space.

    [rel f a] says that the value [a] represents the function [f] at [x0]: for extended reals
    a = f(x0); for dual numbers a = (f(x0), f'(x0)).  The laws say that every operation of the
    number structure preserves the relation wherever the real operation is regular at [x0].
    The theorems below lift them to the contributions of the equation of state. *)
From Coq Require Import ZArith QArith Reals Lra Lia List Bool.
From Verif Require Import Num RNum RSum Tables M_Params F_Params M_Eos.
Import ListNotations.
Local Open Scope R_scope.

Record Transfer {Pt : Type} (K : Num) (x0 : Pt) := mkTransfer {
  rel : (Pt -> R) -> car K -> Prop;
  emb : R -> car K;
  (** where the Pade term / a comparison may be evaluated *)
  padeok : (Pt -> R) -> (Pt -> R) -> Prop;
  brok : (Pt -> R) -> (Pt -> R) -> Prop;
  tr_emb : forall r, rel (fun _ => r) (emb r);
  tr_lit : forall q, rel (fun _ => @nlit RNum q) (nlit q);
  tr_pi : rel (fun _ => @npi RNum) npi;
  tr_add : forall f g a b, rel f a -> rel g b -> rel (fun x => @nadd RNum (f x) (g x)) (nadd a b);
  tr_sub : forall f g a b, rel f a -> rel g b -> rel (fun x => @nsub RNum (f x) (g x)) (nsub a b);
  tr_mul : forall f g a b, rel f a -> rel g b -> rel (fun x => @nmul RNum (f x) (g x)) (nmul a b);
  tr_opp : forall f a, rel f a -> rel (fun x => @nopp RNum (f x)) (nopp a);
  tr_div : forall f g a b, rel f a -> rel g b -> g x0 <> 0 -> rel (fun x => @ndiv RNum (f x) (g x)) (ndiv a b);
  tr_recip : forall f a, rel f a -> f x0 <> 0 -> rel (fun x => @nrecip RNum (f x)) (nrecip a);
  tr_powi : forall f a n, rel f a -> rel (fun x => @npowi RNum (f x) n) (npowi a n);
  tr_exp : forall f a, rel f a -> rel (fun x => @nexp RNum (f x)) (nexp a);
  tr_expm1 : forall f a, rel f a -> rel (fun x => @nexpm1 RNum (f x)) (nexpm1 a);
  tr_ln : forall f a, rel f a -> 0 < f x0 -> rel (fun x => @nln RNum (f x)) (nln a);
  tr_ln1p : forall f a, rel f a -> 0 < 1 + f x0 -> rel (fun x => @nln1p RNum (f x)) (nln1p a);
  tr_sqrt : forall f a, rel f a -> 0 < f x0 -> rel (fun x => @nsqrt RNum (f x)) (nsqrt a);
  tr_cbrt : forall f a, rel f a -> 0 < f x0 -> rel (fun x => @ncbrt RNum (f x)) (ncbrt a);
  tr_min : forall r q a b, rel (fun _ => r) a -> rel (fun _ => q) b -> rel (fun _ => @nmin RNum r q) (nmin a b);
  tr_ltb : forall f g a b, rel f a -> rel g b -> nltb a b = @nltb RNum (f x0) (g x0);
  tr_br : forall (f g u v : Pt -> R) c, brok f g ->
    rel (if @nltb RNum (f x0) (g x0) then u else v) c ->
    rel (fun x => if @nltb RNum (f x) (g x) then u x else v x) c;
  tr_pade : forall f g h a b c, rel f a -> rel g b -> rel h c -> padeok f g ->
    rel (fun x => @pade RNum (f x) (g x) (h x)) (pade a b c)
}.
Arguments rel {Pt K x0}. Arguments emb {Pt K x0}. Arguments padeok {Pt K x0}. Arguments brok {Pt K x0}.

(** an f64 parameter set used inside a generic evaluation *)
Section Lift.
  Context {K : Num} (emb : R -> car K).
  Definition lift1 (l : list R) : list (car K) := map emb l.
  Definition lift2 (l : list (list R)) : list (list (car K)) := map lift1 l.
  Definition lift_opt {A B} (f : A -> B) (o : option A) : option B := match o with Some a => Some (f a) | None => None end.
  Definition lift4 (a : arr4 RNum) : arr4 K := let '(a, b, c, d) := a in (emb a, emb b, emb c, emb d).
  Definition lift5 (a : arr5 RNum) : arr5 K := let '(a, b, c, d, e) := a in (emb a, emb b, emb c, emb d, emb e).
  Definition lift_jb (j : joback_record RNum) : joback_record K :=
    @mkJoback K (emb (jb_a j)) (emb (jb_b j)) (emb (jb_c j)) (emb (jb_d j)) (emb (jb_e j)).
  Definition lift_rec (r : pcsaft_record RNum) : pcsaft_record K :=
    @mkRec K (emb (r_m r)) (emb (r_sigma r)) (emb (r_epsilon_k r))
      (lift_opt emb (r_mu r)) (lift_opt emb (r_q r)) (lift_opt emb (r_kappa_ab r)) (lift_opt emb (r_epsilon_k_ab r))
      (lift_opt emb (r_na r)) (lift_opt emb (r_nb r))
      (lift_opt lift4 (r_viscosity r)) (lift_opt lift5 (r_diffusion r)) (lift_opt lift4 (r_thermal r)).
  Definition lift_pure (r : pure_record RNum) : pure_record K :=
    @mkPure K (pr_id r) (emb (pr_molarweight r)) (lift_rec (pr_model r)) (lift_opt lift_jb (pr_ideal_gas r)).
  Definition plift (p : params RNum) : params K :=
    {| p_molarweight := lift1 (p_molarweight p); p_m := lift1 (p_m p); p_sigma := lift1 (p_sigma p);
       p_epsilon_k := lift1 (p_epsilon_k p); p_mu := lift1 (p_mu p); p_q := lift1 (p_q p);
       p_mu2 := lift1 (p_mu2 p); p_q2 := lift1 (p_q2 p); p_kappa_ab := lift1 (p_kappa_ab p);
       p_epsilon_k_ab := lift1 (p_epsilon_k_ab p); p_na := lift1 (p_na p); p_nb := lift1 (p_nb p);
       p_kappa_aibj := lift2 (p_kappa_aibj p); p_epsilon_k_aibj := lift2 (p_epsilon_k_aibj p);
       p_k_ij := lift2 (p_k_ij p); p_sigma_ij := lift2 (p_sigma_ij p);
       p_epsilon_k_ij := lift2 (p_epsilon_k_ij p); p_e_k_ij := lift2 (p_e_k_ij p);
       p_ndipole := p_ndipole p; p_nquadpole := p_nquadpole p; p_nassoc := p_nassoc p;
       p_dipole_comp := p_dipole_comp p; p_quadpole_comp := p_quadpole_comp p; p_assoc_comp := p_assoc_comp p;
       p_viscosity := lift_opt lift2 (p_viscosity p); p_diffusion := lift_opt lift2 (p_diffusion p);
       p_thermal := lift_opt lift2 (p_thermal p);
       p_pure_records := map lift_pure (p_pure_records p); p_binary_records := lift2 (p_binary_records p);
       p_joback := lift_opt (map lift_jb) (p_joback p) |}.
End Lift.

Section Tr.
  Context {Pt : Type} {K : Num} {x0 : Pt} (TR : Transfer K x0).
  Notation rl := (rel TR).

  (** lists whose entries depend on the path *)
  Definition lrel (fl : Pt -> list R) (l : list (car K)) : Prop :=
    exists fs : list (Pt -> R), (forall x, fl x = map (fun f => f x) fs) /\ Forall2 rl fs l.

  Lemma lrel_nil : lrel (fun _ => nil) nil.
  Proof. exists nil. split; auto. Qed.
  Lemma lrel_cons f a fl l : rl f a -> lrel fl l -> lrel (fun x => f x :: fl x) (a :: l).
  Proof.
    intros H (fs & E & F). exists (f :: fs). split; auto. intros x. cbn. rewrite E. auto.
  Qed.
  Lemma lrel_app fl l gl k : lrel fl l -> lrel gl k -> lrel (fun x => fl x ++ gl x) (l ++ k).
  Proof.
    intros (fs & E & F) (gs & E' & F'). exists (fs ++ gs). split.
    - intros x. rewrite map_app, E, E'. auto.
    - apply Forall2_app; auto.
  Qed.
  Lemma lrel_map_nat (s : list nat) f a : (forall i, In i s -> rl (f i) (a i)) ->
    lrel (fun x => map (fun i => f i x) s) (map a s).
  Proof.
    induction s as [ | i s IH]; intros H; cbn; [apply lrel_nil | ].
    apply (lrel_cons (f i) (a i) (fun x => map (fun i => f i x) s)).
    - apply H; left; auto.
    - apply IH. intros j Hj. apply H; right; auto.
  Qed.
  Lemma lrel_mk1 n f a : (forall i, (i < n)%nat -> rl (f i) (a i)) ->
    lrel (fun x => mk1 n (fun i => f i x)) (mk1 n a).
  Proof. intros H. apply lrel_map_nat. intros i Hi. apply in_seq in Hi. apply H. lia. Qed.
  Lemma lrel_flat_map (s : list nat) F G : (forall i, In i s -> lrel (F i) (G i)) ->
    lrel (fun x => flat_map (fun i => F i x) s) (flat_map G s).
  Proof.
    induction s as [ | i s IH]; intros H; cbn; [apply lrel_nil | ].
    apply (lrel_app (F i) (G i) (fun x => flat_map (fun i => F i x) s)).
    - apply H; left; auto.
    - apply IH. intros j Hj. apply H; right; auto.
  Qed.
  Lemma lrel_map (h : Pt -> R -> R) h2 fl l : lrel fl l ->
    (forall f a, rl f a -> rl (fun x => h x (f x)) (h2 a)) -> lrel (fun x => map (h x) (fl x)) (map h2 l).
  Proof.
    intros (fs & E & F) H. exists (map (fun f x => h x (f x)) fs). split.
    - intros x. rewrite E, !map_map. auto.
    - clear E. induction F; cbn; auto.
  Qed.
  Lemma lrel_length fl l x : lrel fl l -> length (fl x) = length l.
  Proof. intros (fs & E & F). rewrite E, map_length. clear E. induction F; cbn; auto. Qed.

  Lemma fold_add_rel fs l f a : Forall2 rl fs l -> rl f a ->
    rl (fun x => fold_left (@nadd RNum) (map (fun f => f x) fs) (f x)) (fold_left nadd l a).
  Proof.
    intros F. revert f a. induction F as [ | g b fs l G F IH]; intros f a H; cbn; auto.
    apply (IH (fun x => f x + g x) (nadd a b)). apply (tr_add _ _ TR); auto.
  Qed.
  Lemma fold_sub_rel fs l f a : Forall2 rl fs l -> rl f a ->
    rl (fun x => fold_left (@nsub RNum) (map (fun f => f x) fs) (f x)) (fold_left nsub l a).
  Proof.
    intros F. revert f a. induction F as [ | g b fs l G F IH]; intros f a H; cbn; auto.
    apply (IH (fun x => f x - g x) (nsub a b)). apply (tr_sub _ _ TR); auto.
  Qed.
  Lemma rel_eq f g a : (forall x, f x = g x) -> rl f a -> rl g a.
  Proof.
    intros E H. replace g with f; auto. apply FunctionalExtensionality.functional_extensionality. auto.
  Qed.
  Lemma tr_nsum fl l : lrel fl l -> rl (fun x => @nsum RNum (fl x)) (nsum l).
  Proof.
    intros (fs & E & F). unfold nsum.
    apply (rel_eq (fun x => fold_left (@nadd RNum) (map (fun f => f x) fs) (@n0 RNum))).
    - intros x. rewrite E. auto.
    - apply (fold_add_rel fs l (fun _ => @n0 RNum) n0); auto. apply (tr_lit _ _ TR).
  Qed.
  Lemma tr_nsubs fl l : lrel fl l -> rl (fun x => @nsubs RNum (fl x)) (nsubs l).
  Proof.
    intros (fs & E & F). unfold nsubs.
    apply (rel_eq (fun x => fold_left (@nsub RNum) (map (fun f => f x) fs) (@n0 RNum))).
    - intros x. rewrite E. auto.
    - apply (fold_sub_rel fs l (fun _ => @n0 RNum) n0); auto. apply (tr_lit _ _ TR).
  Qed.
  Lemma tr_nsumi n f a : (forall i, (i < n)%nat -> rl (f i) (a i)) ->
    rl (fun x => @nsumi RNum n (fun i => f i x)) (nsumi n a).
  Proof. intros H. unfold nsumi. apply (tr_nsum (fun x => mk1 n (fun i => f i x))). apply lrel_mk1; auto. Qed.
  Lemma tr_n0 : rl (fun _ => @n0 RNum) n0.
  Proof. apply (tr_lit _ _ TR). Qed.
  Lemma tr_n1 : rl (fun _ => @n1 RNum) n1.
  Proof. apply (tr_lit _ _ TR). Qed.
  Lemma tr_ix fl l i : lrel fl l -> rl (fun x => @ix RNum (fl x) i) (ix l i).
  Proof.
    intros (fs & E & F). unfold ix.
    apply (rel_eq (fun x => nth i (map (fun f : Pt -> R => f x) fs) (@n0 RNum))).
    { intros x. rewrite E. auto. }
    clear E. revert i. induction F as [ | f a fs l H F IH]; intros i; cbn.
    - destruct i; apply tr_n0.
    - destruct i; auto.
  Qed.
  Lemma lrel_mk1_ix n fl l : lrel fl l -> lrel (fun x => mk1 n (@ix RNum (fl x))) (mk1 n (ix l)).
  Proof. intros H. apply (lrel_mk1 n (fun i x => @ix RNum (fl x) i)). intros. apply tr_ix; auto. Qed.

  (* constants *)
  Lemma tr_ix1 l i : rl (fun _ => @ix RNum l i) (ix (lift1 (emb TR) l) i).
  Proof.
    unfold ix, lift1. revert i. induction l as [ | a l IH]; intros i; cbn.
    - destruct i; apply tr_n0.
    - destruct i; [apply (tr_emb _ _ TR) | apply IH].
  Qed.
  Lemma tr_ix2 l i j : rl (fun _ => @ix2 RNum l i j) (ix2 (lift2 (emb TR) l) i j).
  Proof.
    unfold ix2, lift2. replace (nth i (map (lift1 (emb TR)) l) []) with (lift1 (emb TR) (nth i l [])).
    - apply tr_ix1.
    - revert i. induction l as [ | r l IH]; intros i; destruct i; try reflexivity. apply IH.
  Qed.
  Lemma tr_cst t i : rl (fun _ => @cst RNum t i) (cst t i).
  Proof. apply (tr_lit _ _ TR). Qed.
  Lemma tr_cst2 t i j : rl (fun _ => @cst2 RNum t i j) (cst2 t i j).
  Proof. apply (tr_lit _ _ TR). Qed.
End Tr.

(** decomposes a transfer goal; leaves the regularity conditions *)
Ltac tr1 TR :=
  match goal with
  | |- rel _ _ _ => eassumption
  | |- rel _ (fun x => ?f) _ =>
    first
    [ eassumption
    | apply (tr_lit _ _ TR) | apply (tr_pi _ _ TR) | apply (tr_n0 TR) | apply (tr_n1 TR)
    | apply (tr_cst TR) | apply (tr_cst2 TR)
    | apply (tr_ix1 TR) | apply (tr_ix2 TR)
    | apply (tr_ix TR); eassumption
    | apply (tr_add _ _ TR) | apply (tr_sub _ _ TR) | apply (tr_mul _ _ TR) | apply (tr_opp _ _ TR)
    | apply (tr_powi _ _ TR) | apply (tr_exp _ _ TR) | apply (tr_expm1 _ _ TR)
    | apply (tr_div _ _ TR) | apply (tr_recip _ _ TR) | apply (tr_ln _ _ TR) | apply (tr_ln1p _ _ TR)
    | apply (tr_sqrt _ _ TR) | apply (tr_cbrt _ _ TR) ]
  end.
Ltac tr TR := repeat tr1 TR.
