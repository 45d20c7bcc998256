(** C08: evaluation with dual numbers yields the true derivatives.

    [dual n] (F_Level.v) is n-fold nested dual numbers: Dual64 for n = 1, HyperDual64 for n = 2.
    A state is seeded by giving temperature, volume and every mole number a direction in each of
    the n infinitesimals.  The theorems say that each coefficient of the result is the
    corresponding partial derivative, at 0, of the plain evaluation along these directions. *)
From Coq Require Import ZArith QArith Reals Lra Lia String List Bool.
From Coquelicot Require Import Coquelicot.
From Verif Require Import Num RNum RSum Tables M_Params F_Params M_Eos Spec F_Spec F_SpecPolar F_SpecAssoc
  F_Contrib F_Cross F_Total Samples F_Transfer XNum F_Transfer2 F_Transfer3 DNum F_Level.
Import ListNotations.
Local Open Scope R_scope.
Set Bullet Behavior "Strict Subproofs".

(* ---------------------------------------------------------------------- specification *)

(** points of R^n *)
Notation pt n := (lP (dual n)).
Notation dnum n := (car (lK (dual n))).
Notation TRn n := (lT (dual n)).

(** partial derivative of [f] at 0 in the directions marked in [s] (each at most once):
    [s] = [true] says is_derive f 0 r, [true; true] says that the derivative g of f(., y) at 0
    exists for y near 0 and is_derive g 0 r, ... *)
Fixpoint partial (n : nat) (s : list bool) : (pt n -> R) -> R -> Prop :=
  match n with
  | O => fun f r => f tt = r
  | S k => fun f r =>
      if hd false s then exists g, near (dual k) (fun y => is_derive (fun x => f (x, y)) 0 (g y)) /\ partial k (tl s) g r
      else partial k (tl s) (fun y => f (0, y)) r
  end.
(** coefficient of a nested dual number *)
Fixpoint coef (n : nat) (s : list bool) : dnum n -> xr :=
  match n with
  | O => fun a => a
  | S k => fun a => coef k (tl s) (if hd false s then snd a else fst a)
  end.
Definition represents (n : nat) (f : pt n -> R) (a : dnum n) : Prop :=
  forall s, List.length s = n -> exists r, coef n s a = Fin r /\ partial n s f r.

(** seeded variable c + d_1 x_1 + ... + d_n x_n *)
Fixpoint aff (n : nat) (c : R) (d : list R) : pt n -> R :=
  match n with
  | O => fun _ => c
  | S k => fun z => aff k c (tl d) (snd z) + hd 0 d * fst z
  end.
Fixpoint seed (n : nat) (c : R) (d : list R) : dnum n :=
  match n with
  | O => Fin c
  | S k => (seed k c (tl d), emb (TRn k) (hd 0 d))
  end.

(* ------------------------------------------------------------------------------ facts *)

Lemma rel_represents n f a : rel (TRn n) f a -> represents n f a.
Proof.
  revert f a. induction n as [ | n IH]; intros f a H s Hs.
  - exists (f tt). cbn in *. auto.
  - destruct s as [ | b s]; [discriminate | ]. cbn [List.length] in Hs.
    destruct H as (A & g & B & C). destruct b.
    + destruct (IH g (snd a) B s ltac:(lia)) as (r & E & P). exists r. split; auto. cbn [partial hd]. exists g. auto.
    + destruct (IH _ (fst a) A s ltac:(lia)) as (r & E & P). exists r. split; auto.
Qed.
Lemma rel_aff n c d : rel (TRn n) (aff n c d) (seed n c d).
Proof.
  revert d. induction n as [ | n IH]; intros d.
  - reflexivity.
  - cbn [aff seed]. split.
    + eapply (rel_near (dual n)); [ | exact (IH (tl d))]. eapply (near_imp (dual n)); [ | apply (near_true (dual n))].
      intros y _. cbn [fst snd]. ring.
    + exists (fun _ => hd 0 d). split; [apply (tr_emb _ _ (TRn n)) | ].
      eapply (near_imp (dual n)); [ | apply (near_true (dual n))]. intros y _. cbn [fst snd]. auto_derive; auto. ring.
Qed.
Lemma aff_base n c d : aff n c d (lz (dual n)) = c.
Proof. revert d. induction n as [ | n IH]; intros d; cbn; auto. rewrite IH. ring. Qed.

Lemma brok_sep n f g a b : rel (TRn n) f a -> rel (TRn n) g b -> f (lz (dual n)) <> g (lz (dual n)) -> brok (TRn n) f g.
Proof.
  destruct n as [ | n]; [intros; exact I | ]. intros A B N.
  pose proof (tr_sub _ _ (TRn (S n)) _ _ _ _ A B) as D. change (@nsub RNum) with Rminus in D.
  destruct (Rlt_or_le (f (lz (dual (S n)))) (g (lz (dual (S n))))) as [C | C].
  - assert (C' : f (lz (dual (S n))) - g (lz (dual (S n))) < 0) by lra.
    eapply (near_imp (dual (S n))); [ | exact (rel_lt (dual (S n)) _ _ 0 D C')]. intros z Hz. cbv beta in Hz.
    rewrite !(proj2 (Rltb_true _ _)); auto. lra.
  - assert (C' : 0 < f (lz (dual (S n))) - g (lz (dual (S n)))) by lra.
    eapply (near_imp (dual (S n))); [ | exact (rel_gt (dual (S n)) _ _ 0 D C')]. intros z Hz. cbv beta in Hz.
    rewrite !(proj2 (Rltb_false _ _)); auto. lra.
Qed.
Lemma pade_sep n f g : f (lz (dual n)) <> g (lz (dual n)) -> padeok (TRn n) f g.
Proof. destruct n; intros H; left; exact H. Qed.
Lemma pade_none n f g : near (dual n) (fun z => f z = 0 /\ g z = 0) -> padeok (TRn n) f g.
Proof.
  intros H. pose proof (near_z (dual n) _ H) as [E1 E2]. destruct n as [ | n]; right.
  - exact E1.
  - split; [exact E1 | split; [exact E2 | ]]. intros h c Hr.
    eapply (rel_near (dual (S n))); [ | exact Hr]. eapply (near_imp (dual (S n))); [ | exact H].
    intros z [-> ->]. unfold pade. rn. unfold Rdiv. ring.
Qed.

Section C08.
  Variables (prs : list (pure_record RNum)) (bin : list (list R)) (p : params RNum).
  Hypothesis Hp : from_records prs bin = Some p.
  Hypothesis Hph : phys p.
  (** order, state and directions: mole numbers with their directions in [seeds] *)
  Variables (n : nat) (t v : R) (dt dv : list R) (seeds : list (R * list R)).
  Let moles : list R := map fst seeds.
  Hypothesis PS : phys_state p t v moles.
  Let W : wfp p := wfp_from_records prs bin p Hp.
  Let X := mix_of p.
  Let rho := fun i => nth i moles 0 / v.
  Definition path (z : pt n) : state RNum :=
    @state_new RNum (aff n t dt z) (aff n v dv z) (map (fun md => aff n (fst md) (snd md) z) seeds).
  Definition dstate : state (lK (dual n)) :=
    @state_new (lK (dual n)) (seed n t dt) (seed n v dv) (map (fun md => seed n (fst md) (snd md)) seeds).
  Definition dparams : params (lK (dual n)) := plift (emb (TRn n)) p.

  Let Tt := rel_aff n t dt.
  Let Tv := rel_aff n v dv.
  Lemma Tm : lrel (TRn n) (fun z => map (fun md => aff n (fst md) (snd md) z) seeds) (map (fun md => seed n (fst md) (snd md)) seeds).
  Proof.
    exists (map (fun md => aff n (fst md) (snd md)) seeds). split.
    - intros z. rewrite map_map. reflexivity.
    - clear. induction seeds as [ | md l IH]; cbn [map]; constructor; auto. apply rel_aff.
  Qed.
  Lemma PS' : phys_state p (aff n t dt (lz (dual n))) (aff n v dv (lz (dual n))) (map (fun md => aff n (fst md) (snd md) (lz (dual n))) seeds).
  Proof.
    rewrite !aff_base. erewrite map_ext; [exact PS | ]. intros md. apply aff_base.
  Qed.

  Theorem C08_hard_sphere : represents n (fun z => a_hs p (path z)) (a_hs dparams dstate).
  Proof. apply rel_represents. exact (tr_hs (TRn n) p W Hph _ _ _ _ _ _ Tt Tv Tm PS'). Qed.
  Theorem C08_hard_chain : represents n (fun z => a_hc p (path z)) (a_hc dparams dstate).
  Proof. apply rel_represents. exact (tr_hc (TRn n) p W Hph _ _ _ _ _ _ Tt Tv Tm PS'). Qed.
  Theorem C08_dispersion : represents n (fun z => a_disp p (path z)) (a_disp dparams dstate).
  Proof. apply rel_represents. exact (tr_disp (TRn n) p W Hph _ _ _ _ _ _ Tt Tv Tm PS'). Qed.

  Let path0 : path (lz (dual n)) = @state_new RNum t v moles.
  Proof. unfold path. rewrite !aff_base. f_equal. apply map_ext. intros md. apply aff_base. Qed.
  Let Hr : forall i, (i < List.length (p_m p))%nat -> @ix RNum (s_rho (@state_new RNum t v moles)) i = rho i.
  Proof. intros. apply (s_rho_ix p t v moles); auto. apply (ps_len _ _ _ _ PS). Qed.
  Let Hpack : packing p t (s_rho (@state_new RNum t v moles)) = Eta X t rho.
  Proof. exact (packing_spec p W t v moles (ps_len _ _ _ _ PS)). Qed.
  Notation zn := (lz (dual n)).
  Let base_t : aff n t dt zn = t. Proof. apply aff_base. Qed.

  Lemma pol_path (phi : params RNum -> R -> list R -> R -> R) :
    phi p (aff n t dt zn) (s_rho (path zn)) (packing p (aff n t dt zn) (s_rho (path zn)))
    = phi p t (s_rho (@state_new RNum t v moles)) (Eta X t rho).
  Proof. rewrite path0, base_t, Hpack. reflexivity. Qed.

  (** The polar terms: no pole of the Pade approximant at the state, or no polar molecules along
      the directions (both orders vanish near the state). *)
  Definition vanish (f g : R -> (nat -> R) -> R) : Prop :=
    near (dual n) (fun z => let r := fun i => nth i (map (fun md => aff n (fst md) (snd md) z) seeds) 0 / aff n v dv z in
      f (aff n t dt z) r = 0 /\ g (aff n t dt z) r = 0).
  Let Hrz z i : (i < List.length (p_m p))%nat ->
    @ix RNum (s_rho (path z)) i = nth i (map (fun md => aff n (fst md) (snd md) z) seeds) 0 / aff n v dv z.
  Proof.
    intros Hi. apply (s_rho_ix p _ _ _); auto. rewrite map_length. rewrite <- (ps_len _ _ _ _ PS). unfold moles. rewrite map_length. auto.
  Qed.
  Let Hpackz z : packing p (aff n t dt z) (s_rho (path z))
    = Eta X (aff n t dt z) (fun i => nth i (map (fun md => aff n (fst md) (snd md) z) seeds) 0 / aff n v dv z).
  Proof. apply (packing_spec p W). rewrite map_length. rewrite <- (ps_len _ _ _ _ PS). unfold moles. rewrite map_length. auto. Qed.

  Lemma dipole_rel : dd2 X t rho <> dd3 X t rho \/ vanish (dd2 X) (dd3 X) ->
    rel (TRn n) (fun z => a_dipole p (path z)) (a_dipole dparams dstate).
  Proof.
    intros H. apply (tr_dipole (TRn n) p W Hph _ _ _ _ _ _ Tt Tv Tm PS').
    pose proof (fun z => dipole_phi2_spec p W Hph (aff n t dt z) _ _ (Hrz z)) as E2.
    pose proof (fun z => dipole_phi3_spec p W Hph (aff n t dt z) _ _ (Hrz z)) as E3.
    destruct H as [H | H].
    - apply pade_sep. intros C. apply H.
      pose proof (dipole_phi2_spec p W Hph t _ rho Hr) as F2. pose proof (dipole_phi3_spec p W Hph t _ rho Hr) as F3.
      fold X in F2, F3. rewrite <- F2, <- F3. clear F2 F3 E2 E3.
      pose proof (pol_path (@dipole_phi2 RNum)) as G2. pose proof (pol_path (@dipole_phi3 RNum)) as G3.
      rewrite <- G2, <- G3. exact C.
    - apply pade_none. eapply near_imp; [ | exact H]. intros z [V2 V3]. cbv beta zeta in *.
      rewrite <- E2 in V2. rewrite <- E3 in V3. rewrite <- Hpackz in V2, V3. split; [exact V2 | exact V3].
  Qed.
  Theorem C08_dipole : dd2 X t rho <> dd3 X t rho \/ vanish (dd2 X) (dd3 X) ->
    represents n (fun z => a_dipole p (path z)) (a_dipole dparams dstate).
  Proof. intros. apply rel_represents. apply dipole_rel; auto. Qed.
  Lemma quadrupole_rel : qq2_code X t rho <> qq3 X t rho \/ vanish (qq2_code X) (qq3 X) ->
    rel (TRn n) (fun z => a_quadrupole p (path z)) (a_quadrupole dparams dstate).
  Proof.
    intros H. apply (tr_quadrupole (TRn n) p W Hph _ _ _ _ _ _ Tt Tv Tm PS').
    pose proof (fun z => quad_phi2_spec p W Hph (aff n t dt z) _ _ (Hrz z)) as E2.
    pose proof (fun z => quad_phi3_spec p W Hph (aff n t dt z) _ _ (Hrz z)) as E3.
    destruct H as [H | H].
    - apply pade_sep. intros C. apply H.
      pose proof (quad_phi2_spec p W Hph t _ rho Hr) as F2. pose proof (quad_phi3_spec p W Hph t _ rho Hr) as F3.
      fold X in F2, F3. rewrite <- F2, <- F3. clear F2 F3 E2 E3.
      pose proof (pol_path (@quad_phi2 RNum)) as G2. pose proof (pol_path (@quad_phi3 RNum)) as G3.
      rewrite <- G2, <- G3. exact C.
    - apply pade_none. eapply near_imp; [ | exact H]. intros z [V2 V3]. cbv beta zeta in *.
      rewrite <- E2 in V2. rewrite <- E3 in V3. rewrite <- Hpackz in V2, V3. split; [exact V2 | exact V3].
  Qed.
  Theorem C08_quadrupole : qq2_code X t rho <> qq3 X t rho \/ vanish (qq2_code X) (qq3 X) ->
    represents n (fun z => a_quadrupole p (path z)) (a_quadrupole dparams dstate).
  Proof. intros. apply rel_represents. apply quadrupole_rel; auto. Qed.
  Definition dq2_var (var : dq_variant) (t : R) (rho : nat -> R) : R := dq2 X t rho (fst (dq_exps var)) (snd (dq_exps var)).
  Lemma dipole_quadrupole_rel var : dq2_var var t rho <> dq3 X t rho \/ vanish (dq2_var var) (dq3 X) ->
    rel (TRn n) (fun z => a_dq p var (path z)) (a_dq dparams var dstate).
  Proof.
    intros H. apply (tr_dq (TRn n) p W Hph _ _ _ _ _ _ Tt Tv Tm PS').
    pose proof (fun z => dq_phi2_spec p W Hph (aff n t dt z) _ _ (Hrz z) var) as E2.
    pose proof (fun z => dq_phi3_spec p W (aff n t dt z) _ _ (Hrz z)) as E3.
    destruct H as [H | H].
    - apply pade_sep. intros C. apply H. unfold dq2_var.
      pose proof (dq_phi2_spec p W Hph t _ rho Hr var) as F2. pose proof (dq_phi3_spec p W t _ rho Hr) as F3.
      fold X in F2, F3. rewrite <- F2, <- F3. clear F2 F3 E2 E3.
      pose proof (pol_path (fun p => @dq_phi2 RNum p var)) as G2. pose proof (pol_path (@dq_phi3 RNum)) as G3.
      rewrite <- G2, <- G3. exact C.
    - apply pade_none. eapply near_imp; [ | exact H]. intros z [V2 V3]. cbv beta zeta in *. unfold dq2_var in V2.
      rewrite <- E2 in V2. rewrite <- E3 in V3. rewrite <- Hpackz in V2, V3. split; [exact V2 | exact V3].
  Qed.
  Theorem C08_dipole_quadrupole var : dq2_var var t rho <> dq3 X t rho \/ vanish (dq2_var var) (dq3 X) ->
    represents n (fun z => a_dq p var (path z)) (a_dq dparams var dstate).
  Proof. intros. apply rel_represents. apply (dipole_quadrupole_rel var); auto. Qed.

  (** One associating component, away from the switch to the low-density expansion (where the
      plain evaluation is discontinuous). *)
  Lemma association_rel a : p_assoc_comp p = [a] -> assoc_phys p ->
    0 < Na X a -> (0 < Nb X a -> Na X a + Nb X a <= 2 ^ 26) -> Delta X t rho a a * rho a <> / 2 ^ 26 ->
    rel (TRn n) (fun z => a_assoc p (path z)) (a_assoc dparams dstate).
  Proof.
    intros Ha Hap Hna Hnb Hs.
    apply (tr_assoc (TRn n) p W Hph _ _ _ _ _ _ Tt Tv Tm PS' a Ha Hap Hna).
    - intros B. specialize (Hnb B). replace 67108864 with (2 ^ 26) by lra. exact Hnb.
    - eapply brok_sep; [apply (tr_emb _ _ (TRn n)) | exact (tr_drho (TRn n) p W Hph _ _ _ _ _ _ Tt Tv Tm PS' a Ha) | ].
      intros C. apply Hs. pose proof (assoc_deltarho p W Hph t v moles PS a Ha) as E. fold X in E. fold rho in E.
      rewrite <- E. rewrite sqrt_eps_R in C. replace 67108864 with (2 ^ 26) in C by lra. rewrite C.
      unfold drho. change (@state_new RNum (aff n t dt zn) (aff n v dv zn) (map (fun md => aff n (fst md) (snd md) zn) seeds)) with (path zn).
      rewrite path0, base_t. reflexivity.
  Qed.
  Theorem C08_association a : p_assoc_comp p = [a] -> assoc_phys p ->
    0 < Na X a -> (0 < Nb X a -> Na X a + Nb X a <= 2 ^ 26) -> Delta X t rho a a * rho a <> / 2 ^ 26 ->
    represents n (fun z => a_assoc p (path z)) (a_assoc dparams dstate).
  Proof. intros. apply rel_represents. apply (association_rel a); auto. Qed.

  (** the residual Helmholtz energy with at most one associating component *)
  Theorem C08_residual lu lu2 o :
    (p_ndipole p <> 0%nat -> dd2 X t rho <> dd3 X t rho \/ vanish (dd2 X) (dd3 X)) ->
    (p_nquadpole p <> 0%nat -> qq2_code X t rho <> qq3 X t rho \/ vanish (qq2_code X) (qq3 X)) ->
    (p_ndipole p <> 0%nat -> p_nquadpole p <> 0%nat ->
       dq2_var (o_dq o) t rho <> dq3 X t rho \/ vanish (dq2_var (o_dq o)) (dq3 X)) ->
    (p_nassoc p <= 1)%nat ->
    (forall a, p_assoc_comp p = [a] -> assoc_phys p /\ 0 < Na X a /\ (0 < Nb X a -> Na X a + Nb X a <= 2 ^ 26) /\
       Delta X t rho a a * rho a <> / 2 ^ 26) ->
    exists f a, (forall z, residual lu (with_options p o) (path z) = Some (f z)) /\
      residual lu2 (with_options dparams (lift_options (emb (TRn n)) o)) dstate = Some a /\ represents n f a.
  Proof.
    intros H1 H2 H3 Hn Ha.
    destruct (tr_residual (TRn n) p W Hph _ _ _ _ _ _ Tt Tv Tm PS' lu lu2 o) as (f & a & E1 & E2 & E3); auto.
    - intros D. apply dipole_rel; auto.
    - intros D. apply quadrupole_rel; auto.
    - intros D1 D2. apply dipole_quadrupole_rel; auto.
    - intros E. assert (exists a, p_assoc_comp p = [a]) as (a & Ea).
      { rewrite (w_na _ W) in E. destruct (p_assoc_comp p) as [ | a [ | b l]]; try discriminate. exists a; auto. }
      destruct (Ha a Ea) as (A & B & C & D). apply (association_rel a); auto.
    - exists f, a. split; [exact E1 | split; [exact E2 | apply rel_represents; exact E3]].
  Qed.
End C08.
