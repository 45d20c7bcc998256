(** Regular dependence of linear systems on parameters, and functions that vanish to higher order
    at the base point of a level (nested dual numbers). *)
From Coq Require Import ZArith QArith Reals Lra Lia List Bool.
From Coquelicot Require Import Coquelicot.
From Verif Require Import Num RNum RSum Tables M_Params F_Params M_Eos F_Transfer XNum DNum F_Level.
Import ListNotations.
Local Open Scope R_scope.
Set Bullet Behavior "Strict Subproofs".

Lemma Sum_shift n (f : nat -> R) : (Sum i < S n, f i) = f O + Sum i < n, f (S i).
Proof.
  unfold rsum at 1. cbn [seq]. fold (rsum (0%nat :: seq 1 n) f).
  rewrite <- seq_shift. change (rsum (0%nat :: map S (seq 0 n)) f = f O + Sum i < n, f (S i)).
  change (f O + rsum (map S (seq 0 n)) f = f O + Sum i < n, f (S i)). f_equal. apply rsum_map.
Qed.

Section Linear.
  Variable L : level.
  Notation P := (lP L). Notation TR := (lT L). Notation nr := (near L). Notation z0 := (lz L).
  Definition reg (f : P -> R) : Prop := exists a, rel TR f a.
  Lemma reg_const r : reg (fun _ => r).
  Proof. eexists. apply (tr_emb _ _ TR). Qed.
  Lemma reg_add f g : reg f -> reg g -> reg (fun z => f z + g z).
  Proof. intros [a A] [b B]. eexists. exact (tr_add _ _ TR _ _ _ _ A B). Qed.
  Lemma reg_sub f g : reg f -> reg g -> reg (fun z => f z - g z).
  Proof. intros [a A] [b B]. eexists. exact (tr_sub _ _ TR _ _ _ _ A B). Qed.
  Lemma reg_mul f g : reg f -> reg g -> reg (fun z => f z * g z).
  Proof. intros [a A] [b B]. eexists. exact (tr_mul _ _ TR _ _ _ _ A B). Qed.
  Lemma reg_opp f : reg f -> reg (fun z => - f z).
  Proof. intros [a A]. eexists. exact (tr_opp _ _ TR _ _ A). Qed.
  Lemma reg_div f g : reg f -> reg g -> g z0 <> 0 -> reg (fun z => f z / g z).
  Proof. intros [a A] [b B] N. eexists. exact (tr_div _ _ TR _ _ _ _ A B N). Qed.
  Lemma reg_near f g : nr (fun z => f z = g z) -> reg f -> reg g.
  Proof. intros E [a A]. exists a. exact (rel_near L _ _ _ E A). Qed.
  Lemma reg_eq f g : (forall z, f z = g z) -> reg f -> reg g.
  Proof. intros E. apply reg_near. apply near_all. auto. Qed.
  Lemma reg_sum n (f : nat -> P -> R) : (forall i, (i < n)%nat -> reg (f i)) -> reg (fun z => Sum i < n, f i z).
  Proof.
    induction n as [ | n IH]; intros H.
    - apply (reg_eq (fun _ => 0)); [reflexivity | apply reg_const].
    - apply (reg_eq (fun z => (Sum i < n, f i z) + f n z)); [intros z; rewrite Sum_S; reflexivity | ].
      apply reg_add; auto.
  Qed.
  Lemma reg_nz f : reg f -> f z0 <> 0 -> nr (fun z => f z <> 0).
  Proof. intros [a A] N. exact (rel_nz L _ _ A N). Qed.
  Lemma near_forall n (Q : nat -> P -> Prop) : (forall i, (i < n)%nat -> nr (Q i)) -> nr (fun z => forall i, (i < n)%nat -> Q i z).
  Proof.
    induction n as [ | n IH]; intros H.
    - apply near_all. intros; lia.
    - eapply near_imp; [ | exact (near_and L _ _ (IH (fun i Hi => H i (Nat.lt_lt_succ_r _ _ Hi))) (H n (Nat.lt_succ_diag_r n)))].
      intros z [A B] i Hi. destruct (Nat.eq_dec i n) as [-> | ]; auto. apply A. lia.
  Qed.

  Definition msing (n : nat) (H : nat -> nat -> R) : Prop :=
    forall u, (forall k, (k < n)%nat -> (Sum l < n, H k l * u l) = 0) -> forall k, (k < n)%nat -> u k = 0.
  Definition skip (i k : nat) : nat := if (k <? i)%nat then k else S k.
  Lemma skip_lt i k n : (i < S n)%nat -> (k < n)%nat -> (skip i k < S n)%nat.
  Proof. unfold skip. destruct (Nat.ltb_spec k i); lia. Qed.
  Lemma skip_cover i k n : (i < S n)%nat -> (k < S n)%nat -> k = i \/ exists j, (j < n)%nat /\ k = skip i j.
  Proof.
    intros Hi Hk. destruct (Nat.lt_trichotomy k i) as [C | [C | C]]; auto; right.
    - exists k. unfold skip. destruct (Nat.ltb_spec k i); lia.
    - exists (k - 1)%nat. unfold skip. destruct (Nat.ltb_spec (k - 1) i); lia.
  Qed.

  (** one elimination step at a point *)
  Section Elim.
    Variables (n i : nat) (H : nat -> nat -> R).
    Hypothesis Hi : (i < S n)%nat.
    Hypothesis Hp : H i O <> 0.
    Definition elim (k l : nat) : R := H (skip i k) (S l) - H (skip i k) O / H i O * H i (S l).
    Definition back (c : R) (u : nat -> R) (l : nat) : R :=
      match l with O => (c - Sum l < n, H i (S l) * u l) / H i O | S l => u l end.
    Lemma elim_row u k : (Sum l < n, elim k l * u (S l))
      = (Sum l < S n, H (skip i k) l * u l) - H (skip i k) O / H i O * (Sum l < S n, H i l * u l).
    Proof.
      rewrite !Sum_shift. unfold elim.
      rewrite (Sum_ext n _ (fun l => H (skip i k) (S l) * u (S l) - H (skip i k) O / H i O * (H i (S l) * u (S l)))) by (intros; ring).
      rewrite rsum_minus, rsum_scal. field. auto.
    Qed.
    Lemma back_row c u : (Sum l < S n, H i l * back c u l) = c.
    Proof. rewrite Sum_shift. cbn [back]. field. auto. Qed.
    Lemma elim_msing : msing (S n) H -> msing n elim.
    Proof.
      intros M u Hu k Hk. apply (M (back 0 u)) with (k := S k); [ | lia]. clear k Hk. intros k Hk.
      destruct (skip_cover i k n Hi Hk) as [-> | (j & Hj & ->)]; [apply back_row | ].
      pose proof (elim_row (back 0 u) j) as E. rewrite back_row in E. cbn [back] in E. rewrite Hu in E by auto. lra.
    Qed.
    Lemma elim_msing_conv : msing n elim -> msing (S n) H.
    Proof.
      intros M u Hu.
      assert (Z : forall l, (l < n)%nat -> u (S l) = 0).
      { apply M. intros k Hk. rewrite (elim_row u k), (Hu i Hi), (Hu (skip i k)) by (apply skip_lt; auto). ring. }
      intros [ | k] Hk; [ | apply Z; lia].
      specialize (Hu i Hi). rewrite Sum_shift in Hu.
      rewrite (rsum_zero (seq 0 n)) in Hu by (intros l Hl; apply seq_in in Hl; rewrite Z by auto; ring).
      apply Rmult_eq_reg_l with (H i O); auto. lra.
    Qed.
    Lemma elim_solve b u : (forall k, (k < n)%nat -> (Sum l < n, elim k l * u l) = b (skip i k) - H (skip i k) O / H i O * b i) ->
      forall k, (k < S n)%nat -> (Sum l < S n, H k l * back (b i) u l) = b k.
    Proof.
      intros E k Hk. destruct (skip_cover i k n Hi Hk) as [-> | (j & Hj & ->)]; [apply back_row | ].
      pose proof (elim_row (back (b i) u) j) as R1. rewrite back_row in R1. cbn [back] in R1. rewrite E in R1 by auto. lra.
    Qed.
  End Elim.
  Lemma pivot n (H : nat -> nat -> R) : msing (S n) H -> exists i, (i < S n)%nat /\ H i O <> 0.
  Proof.
    intros M. assert (D : (exists i, (i < S n)%nat /\ H i O <> 0) \/ forall i, (i < S n)%nat -> H i O = 0).
    { generalize (S n) at 1 2. intros m. induction m as [ | m [(i & A & B) | IH]]; [right; intros; lia | left; exists i; split; auto; lia | ].
      destruct (Req_dec (H m O) 0); [right | left; exists m; split; auto].
      intros i Hi. destruct (Nat.eq_dec i m) as [-> | ]; auto. apply IH; lia. }
    destruct D as [D | D]; auto. exfalso.
    set (u := fun l : nat => match l with O => 1 | _ => 0 end).
    assert (E : u O = 0); [ | unfold u in E; lra].
    apply (M u); [ | lia]. intros k Hk. unfold u. rewrite Sum_shift, D by auto. rewrite rsum_zero; [ring | ]. intros; ring.
  Qed.

  (** a linear system that is regular and nonsingular at the base point stays nonsingular nearby,
      and its solution is regular *)
  Theorem linear_regular n : forall H : nat -> nat -> P -> R, (forall k l, (k < n)%nat -> (l < n)%nat -> reg (H k l)) ->
    msing n (fun k l => H k l z0) ->
    nr (fun z => msing n (fun k l => H k l z)) /\
    forall b : nat -> P -> R, (forall k, (k < n)%nat -> reg (b k)) ->
      exists u : nat -> P -> R, (forall k, (k < n)%nat -> reg (u k)) /\
        nr (fun z => forall k, (k < n)%nat -> (Sum l < n, H k l z * u l z) = b k z).
  Proof.
    induction n as [ | n IH]; intros H RH M.
    - split; [apply near_all; intros z u _ k Hk; lia | ]. intros b _. exists (fun _ _ => 0). split; [intros; lia | apply near_all; intros; lia].
    - destruct (pivot n _ M) as (i & Hi & Hp).
      assert (Np := reg_nz _ (RH i O Hi (Nat.lt_0_succ n)) Hp).
      assert (Rc : forall k, (k < n)%nat -> reg (fun z => H (skip i k) O z / H i O z)).
      { intros k Hk. apply reg_div; auto; apply RH; try lia. apply skip_lt; auto. }
      destruct (IH (fun k l z => elim i (fun k l => H k l z) k l)) as [Nm Sv].
      { intros k l Hk Hl. unfold elim. pose proof (skip_lt i k n Hi Hk). apply reg_sub; [apply RH; lia | ].
        apply (reg_mul (fun z => H (skip i k) O z / H i O z)); [apply Rc; auto | apply RH; lia]. }
      { exact (elim_msing n i (fun k l => H k l z0) Hi Hp M). }
      split.
      + eapply near_imp; [ | exact (near_and L _ _ Np Nm)]. intros z [A B]. exact (elim_msing_conv n i _ Hi A B).
      + intros b Rb.
        destruct (Sv (fun k z => b (skip i k) z - H (skip i k) O z / H i O z * b i z)) as (u & Ru & Eu).
        { intros k Hk. pose proof (skip_lt i k n Hi Hk). apply reg_sub; [apply Rb; auto | ].
          apply (reg_mul (fun z => H (skip i k) O z / H i O z)); auto. }
        exists (fun l z => back n i (fun k l => H k l z) (b i z) (fun l => u l z) l). split.
        * intros [ | k] Hk; cbn [back].
          -- apply (reg_div (fun z => b i z - Sum l < n, H i (S l) z * u l z)); [ | apply RH; lia | exact Hp].
             apply reg_sub; auto. apply (reg_sum n (fun l z => H i (S l) z * u l z)). intros l Hl. apply reg_mul; auto. apply RH; lia.
          -- apply Ru; lia.
        * eapply near_imp; [ | exact (near_and L _ _ Np Eu)]. intros z [A B].
          exact (elim_solve n i (fun k l => H k l z) Hi A (fun k => b k z) (fun l => u l z) B).
  Qed.

  Definition delta_ (k m : nat) : R := if Nat.eqb k m then 1 else 0.
  Lemma Sum_delta n (f : nat -> R) m : (m < n)%nat -> (Sum l < n, f l * delta_ l m) = f m.
  Proof.
    intros Hm. etransitivity; [apply (Sum_single n m); auto | ].
    - intros i Hi Hn. unfold delta_. destruct (Nat.eqb_spec i m); [congruence | ring].
    - unfold delta_. rewrite Nat.eqb_refl. ring.
  Qed.
  Lemma Sum_delta_l n (f : nat -> R) m : (m < n)%nat -> (Sum l < n, delta_ m l * f l) = f m.
  Proof.
    intros Hm. etransitivity; [apply (Sum_single n m); auto | ].
    - intros i Hi Hn. unfold delta_. destruct (Nat.eqb_spec m i); [congruence | ring].
    - unfold delta_. rewrite Nat.eqb_refl. ring.
  Qed.
  Lemma Sum_swap2 n (f : nat -> nat -> R) : (Sum k < n, Sum l < n, f k l) = Sum l < n, Sum k < n, f k l.
  Proof. apply rsum_swap. Qed.

  (** regular inverse *)
  Theorem inverse_regular n (H : nat -> nat -> P -> R) : (forall k l, (k < n)%nat -> (l < n)%nat -> reg (H k l)) ->
    msing n (fun k l => H k l z0) ->
    exists G : nat -> nat -> P -> R, (forall k l, (k < n)%nat -> (l < n)%nat -> reg (G k l)) /\
      nr (fun z => (forall k m, (k < n)%nat -> (m < n)%nat -> (Sum l < n, H k l z * G l m z) = delta_ k m) /\
                   (forall k m, (k < n)%nat -> (m < n)%nat -> (Sum l < n, G k l z * H l m z) = delta_ k m)).
  Proof.
    intros RH M. destruct (linear_regular n H RH M) as [Nm Sv].
    assert (C : forall j, (j <= n)%nat -> exists G : nat -> nat -> P -> R, (forall k l, (k < n)%nat -> (l < j)%nat -> reg (G k l)) /\
      nr (fun z => forall k m, (k < n)%nat -> (m < j)%nat -> (Sum l < n, H k l z * G l m z) = delta_ k m)).
    { induction j as [ | j IHj]; intros Hj.
      - exists (fun _ _ _ => 0). split; [intros; lia | apply near_all; intros; lia].
      - destruct IHj as (G & RG & EG); [lia | ]. destruct (Sv (fun k _ => delta_ k j)) as (u & Ru & Eu); [intros; apply reg_const | ].
        exists (fun k m z => if Nat.eqb m j then u k z else G k m z). split.
        + intros k l Hk Hl. destruct (Nat.eqb_spec l j); auto. apply RG; auto; lia.
        + eapply near_imp; [ | exact (near_and L _ _ EG Eu)]. intros z [A B] k m Hk Hm.
          destruct (Nat.eqb_spec m j) as [-> | ]; auto. apply A; auto. lia. }
    destruct (C n (le_n n)) as (G & RG & EG). exists G. split; auto.
    eapply near_imp; [ | exact (near_and L _ _ EG Nm)]. intros z [A B]. split; auto.
    intros k m Hk Hm.
    set (u := fun k => (Sum l < n, G k l z * H l m z) - delta_ k m).
    assert (E : u k = 0); [ | unfold u in E; lra].
    apply (B u); auto. clear k Hk. intros k Hk. unfold u.
    rewrite (Sum_ext n _ (fun l => (Sum j < n, H k l z * G l j z * H j m z) - H k l z * delta_ l m)).
    2:{ intros l Hl. rewrite Rmult_minus_distr_l. f_equal. rewrite <- rsum_scal. apply Sum_ext. intros; ring. }
    rewrite rsum_minus, Sum_delta by auto.
    rewrite Sum_swap2.
    rewrite (Sum_ext n _ (fun j => delta_ k j * H j m z)).
    2:{ intros j Hj. rewrite <- (A k j Hk Hj), <- rsum_scal_r. apply Sum_ext. intros; ring. }
    rewrite Sum_delta_l by auto. ring.
  Qed.

  (** powers of the ideal of regular functions that vanish at the base point *)
  Inductive flat : nat -> (P -> R) -> Prop :=
  | flat_reg f : reg f -> flat 0 f
  | flat_mul j f g : reg f -> f z0 = 0 -> flat j g -> flat (S j) (fun z => f z * g z)
  | flat_add j f g : flat j f -> flat j g -> flat j (fun z => f z + g z)
  | flat_near j f g : nr (fun z => f z = g z) -> flat j f -> flat j g.
  Lemma flat_eq j f g : (forall z, f z = g z) -> flat j f -> flat j g.
  Proof. intros E. apply flat_near. apply near_all; auto. Qed.
  Lemma flat_is_reg j f : flat j f -> reg f.
  Proof.
    induction 1; auto.
    - apply reg_mul; auto.
    - apply reg_add; auto.
    - eapply reg_near; eauto.
  Qed.
  Lemma flat_scal j f g : reg f -> flat j g -> flat j (fun z => f z * g z).
  Proof.
    intros Rf F. induction F.
    - constructor. apply reg_mul; auto.
    - apply (flat_eq _ (fun z => f0 z * (f z * g z))); [intros; ring | ]. constructor; auto.
    - apply (flat_eq _ (fun z => f z * f0 z + f z * g z)); [intros; ring | ]. constructor; auto.
    - eapply flat_near; [ | exact IHF]. eapply near_imp; [ | exact H]. intros z E. cbv beta in *. rewrite E. auto.
  Qed.
  Lemma flat_prod i j f g : flat i f -> flat j g -> flat (i + j) (fun z => f z * g z).
  Proof.
    intros F G. revert j g G. induction F; intros j' g' G; cbn [Nat.add].
    - apply flat_scal; auto.
    - apply (flat_eq _ (fun z => f z * (g z * g' z))); [intros; ring | ]. constructor; auto.
    - apply (flat_eq _ (fun z => f z * g' z + g z * g' z)); [intros; ring | ]. constructor; auto.
    - eapply flat_near; [ | exact (IHF j' g' G)]. eapply near_imp; [ | exact H]. intros z E. cbv beta in *. rewrite E. auto.
  Qed.
  Lemma flat_zero j : flat j (fun _ => 0).
  Proof.
    induction j; [constructor; apply reg_const | ].
    apply (flat_eq _ (fun _ => 0 * 0)); [intros; ring | ]. constructor; auto. apply reg_const.
  Qed.
  Lemma flat_one f : reg f -> f z0 = 0 -> flat 1 f.
  Proof.
    intros Rf E. apply (flat_eq _ (fun z => f z * 1)); [intros; ring | ]. constructor; auto. constructor. apply reg_const.
  Qed.
  Lemma flat_sum n j (f : nat -> P -> R) : (forall i, (i < n)%nat -> flat j (f i)) -> flat j (fun z => Sum i < n, f i z).
  Proof.
    induction n as [ | n IH]; intros H.
    - apply (flat_eq _ (fun _ => 0)); [reflexivity | apply flat_zero].
    - apply (flat_eq _ (fun z => (Sum i < n, f i z) + f n z)); [intros z; rewrite Sum_S; reflexivity | ]. constructor; auto.
  Qed.
  Lemma flat_le i j f : (i <= j)%nat -> flat j f -> flat i f.
  Proof.
    intros Hi F. revert i Hi. induction F; intros i Hi.
    - replace i with O by lia. constructor; auto.
    - destruct i as [ | i]; [constructor; apply reg_mul; auto; eapply flat_is_reg; eauto | ].
      constructor; auto. apply IHF; lia.
    - constructor; auto.
    - eapply flat_near; eauto.
  Qed.
End Linear.

Section Slice.
  Variable L : level.
  Lemma reg_slice f : reg (next L) f -> reg L (fun y => f (0, y)) /\
    exists g, reg L g /\ near L (fun y => is_derive (fun x => f (x, y)) 0 (g y)).
  Proof. intros [a (A & g & B & C)]. split; [eexists; exact A | ]. exists g. split; auto. eexists; exact B. Qed.
  Lemma reg_next f g : reg L (fun y => f (0, y)) -> reg L g -> near L (fun y => is_derive (fun x => f (x, y)) 0 (g y)) ->
    reg (next L) f.
  Proof. intros [a A] [b B] D. exists (a, b). split; auto. exists g. auto. Qed.
  Lemma flat_slice j f : flat (next L) j f -> flat L j (fun y => f (0, y)) /\
    exists g, flat L (j - 1) g /\ near L (fun y => is_derive (fun x => f (x, y)) 0 (g y)).
  Proof.
    induction 1 as [f Rf | j f g Rf E F [IH0 (d & Fd & Dd)] | j f g F [IH0 (d & Fd & Dd)] F' [IH0' (d' & Fd' & Dd')] | j f g E F [IH0 (d & Fd & Dd)]].
    - apply reg_slice in Rf. destruct Rf as (A & g & B & C). split; [constructor; auto | ]. exists g. split; auto. constructor; auto.
    - apply reg_slice in Rf. destruct Rf as (A & h & B & C). split; [constructor; auto | ].
      exists (fun y => h y * g (0, y) + f (0, y) * d y). split.
      + replace (S j - 1)%nat with j by lia. constructor.
        * apply flat_scal; auto.
        * destruct j as [ | j].
          -- apply flat_scal; auto.
          -- replace (S j - 1)%nat with j in Fd by lia. constructor; auto.
      + eapply near_imp; [ | exact (near_and L _ _ C Dd)]. intros y [D1 D2].
        exact (is_derive_mult (fun x => f (x, y)) (fun x => g (x, y)) 0 _ _ D1 D2 Rmult_comm).
    - split; [constructor; auto | ]. exists (fun y => d y + d' y). split; [constructor; auto | ].
      eapply near_imp; [ | exact (near_and L _ _ Dd Dd')]. intros y [D1 D2].
      exact (is_derive_plus (fun x => f (x, y)) (fun x => g (x, y)) 0 _ _ D1 D2).
    - split.
      + eapply flat_near; [ | exact IH0]. exact (near_slice L _ E).
      + exists d. split; auto. eapply near_imp; [ | exact (near_and L _ _ E Dd)]. intros y [D1 D2].
        exact (is_derive_ext_loc (fun x => f (x, y)) (fun x => g (x, y)) 0 _ D1 D2).
  Qed.
End Slice.

(** products of more than n vanishing functions are zero in n-fold dual numbers *)
Theorem flat_nil n : forall j f, (n < j)%nat -> flat (dual n) j f -> rel (lT (dual n)) f n0.
Proof.
  induction n as [ | n IH]; intros j f Hj F.
  - destruct j as [ | j]; [lia | ].
    assert (E : f tt = 0).
    { clear - F. remember (S j) as k. revert j Heqk. induction F; intros i Heqk.
      - discriminate.
      - cbn in *. rewrite H0. ring.
      - rewrite (IHF1 i), (IHF2 i) by auto. ring.
      - cbn in H. rewrite <- H. eauto. }
    cbn. rewrite E. unfold n0. reflexivity.
  - destruct (flat_slice (dual n) j f F) as (A & g & B & C). split.
    + apply (IH j); auto. lia.
    + exists g. split; [apply (IH (j - 1)%nat); auto; lia | exact C].
Qed.
