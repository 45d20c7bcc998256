(** The residual Helmholtz energy at a regular point, evaluated over any level. *)
From Coq Require Import ZArith QArith Reals Lra Lia String List Bool.
From Coquelicot Require Import Coquelicot.
From Verif Require Import Num RNum RSum Tables M_Params F_Params M_Eos Spec F_Spec F_SpecPolar F_SpecAssoc
  F_Contrib F_Cross F_Total Samples F_Transfer XNum F_Transfer2 F_Transfer3 DNum F_Level F_Class P_Dual P_Dual2.
Import ListNotations.
Local Open Scope R_scope.
Set Bullet Behavior "Strict Subproofs".

(** comparisons and Pade terms may be evaluated where the compared values differ *)
Definition separating (L : level) : Prop :=
  (forall f g a b, rel (lT L) f a -> rel (lT L) g b -> f (lz L) <> g (lz L) -> brok (lT L) f g) /\
  (forall f g, f (lz L) <> g (lz L) -> padeok (lT L) f g).

Lemma level_branch (L : level) f g a b : rel (lT L) f a -> rel (lT L) g b -> f (lz L) <> g (lz L) ->
  near L (fun z => @nltb RNum (f z) (g z) = @nltb RNum (f (lz L)) (g (lz L))).
Proof.
  intros A B N. pose proof (tr_sub _ _ (lT L) _ _ _ _ A B) as D. change (@nsub RNum) with Rminus in D.
  destruct (Rlt_or_le (f (lz L)) (g (lz L))) as [C | C].
  - assert (C' : f (lz L) - g (lz L) < 0) by lra.
    eapply (near_imp L); [ | exact (rel_lt L _ _ 0 D C')]. intros z Hz. cbv beta in Hz.
    change (@nltb RNum) with Rltb. rewrite !(proj2 (Rltb_true _ _)); auto. lra.
  - assert (C' : 0 < f (lz L) - g (lz L)) by lra.
    eapply (near_imp L); [ | exact (rel_gt L _ _ 0 D C')]. intros z Hz. cbv beta in Hz.
    change (@nltb RNum) with Rltb. rewrite !(proj2 (Rltb_false _ _)); auto. lra.
Qed.
Lemma separating_next L : separating (next L).
Proof.
  split.
  - intros f g a b A B N. exact (level_branch (next L) f g a b A B N).
  - intros f g N. left. exact N.
Qed.
Lemma separating_dual n : separating (dual n).
Proof.
  destruct n as [ | n]; [ | apply separating_next]. split.
  - intros; exact I.
  - intros f g H. left. exact H.
Qed.
Lemma separating_linear n : separating (linear_level n).
Proof.
  split.
  - intros f g a b A B N. exact (level_branch (linear_level n) f g a b A B N).
  - intros f g N. left. exact N.
Qed.
Lemma separating_symmetric : separating symmetric_level.
Proof.
  split.
  - intros f g a b A B N. exact (level_branch symmetric_level f g a b A B N).
  - intros f g N. left. exact N.
Qed.

Section Res.
  Variables (prs : list (pure_record RNum)) (bin : list (list R)) (p : params RNum).
  Hypothesis Hp : from_records prs bin = Some p.
  Hypothesis Hph : phys p.
  Variables (t v : R) (moles : list R).
  Hypothesis PS : phys_state p t v moles.
  Let W : wfp p := wfp_from_records prs bin p Hp.
  Let X := mix_of p.
  Let rho := fun i => nth i moles 0 / v.

  Variable L : level.
  Hypothesis Sep : separating L.
  Variables (tf vf : lP L -> R) (mf : lP L -> list R).
  Variables (td vd : car (lK L)) (md : list (car (lK L))).
  Hypothesis Tt : rel (lT L) tf td.
  Hypothesis Tv : rel (lT L) vf vd.
  Hypothesis Tm : lrel (lT L) mf md.
  Hypothesis Bt : tf (lz L) = t.
  Hypothesis Bv : vf (lz L) = v.
  Hypothesis Bm : mf (lz L) = moles.

  Let PSz : phys_state p (tf (lz L)) (vf (lz L)) (mf (lz L)).
  Proof. rewrite Bt, Bv, Bm. exact PS. Qed.
  Let Hr : forall i, (i < List.length (p_m p))%nat -> @ix RNum (s_rho (@state_new RNum t v moles)) i = rho i.
  Proof. intros. apply (s_rho_ix p t v moles); auto. apply (ps_len _ _ _ _ PS). Qed.
  Let Hpack : packing p t (s_rho (@state_new RNum t v moles)) = Eta X t rho.
  Proof. exact (packing_spec p W t v moles (ps_len _ _ _ _ PS)). Qed.
  Let pol_path (phi : params RNum -> R -> list R -> R -> R) :
    phi p (tf (lz L)) (s_rho (@state_new RNum (tf (lz L)) (vf (lz L)) (mf (lz L))))
      (packing p (tf (lz L)) (s_rho (@state_new RNum (tf (lz L)) (vf (lz L)) (mf (lz L)))))
    = phi p t (s_rho (@state_new RNum t v moles)) (Eta X t rho).
  Proof. rewrite Bt, Bv, Bm, Hpack. reflexivity. Qed.

  Theorem level_residual lu lu2 o : regular_point p t v moles o ->
    exists f a, (forall z, residual lu (with_options p o) (@state_new RNum (tf z) (vf z) (mf z)) = Some (f z)) /\
      residual lu2 (with_options (plift (emb (lT L)) p) (lift_options (emb (lT L)) o)) (@state_new (lK L) td vd md) = Some a /\
      rel (lT L) f a.
  Proof.
    intros (H1 & H2 & H3 & Hn & Ha). destruct Sep as [Bs Ps].
    apply (tr_residual (lT L) p W Hph _ _ _ _ _ _ Tt Tv Tm PSz lu lu2 o); auto.
    - intros D. specialize (H1 D). apply (tr_dipole (lT L) p W Hph _ _ _ _ _ _ Tt Tv Tm PSz).
      apply Ps. intros C. apply H1.
      pose proof (dipole_phi2_spec p W Hph t _ rho Hr) as F2. pose proof (dipole_phi3_spec p W Hph t _ rho Hr) as F3.
      fold X in F2, F3. fold X. fold rho. rewrite <- F2, <- F3. clear F2 F3.
      pose proof (pol_path (@dipole_phi2 RNum)) as G2. pose proof (pol_path (@dipole_phi3 RNum)) as G3.
      rewrite <- G2, <- G3. exact C.
    - intros D. specialize (H2 D). apply (tr_quadrupole (lT L) p W Hph _ _ _ _ _ _ Tt Tv Tm PSz).
      apply Ps. intros C. apply H2.
      pose proof (quad_phi2_spec p W Hph t _ rho Hr) as F2. pose proof (quad_phi3_spec p W Hph t _ rho Hr) as F3.
      fold X in F2, F3. fold X. fold rho. rewrite <- F2, <- F3. clear F2 F3.
      pose proof (pol_path (@quad_phi2 RNum)) as G2. pose proof (pol_path (@quad_phi3 RNum)) as G3.
      rewrite <- G2, <- G3. exact C.
    - intros D D'. specialize (H3 D D'). apply (tr_dq (lT L) p W Hph _ _ _ _ _ _ Tt Tv Tm PSz).
      apply Ps. intros C. apply H3.
      pose proof (dq_phi2_spec p W Hph t _ rho Hr (o_dq o)) as F2. pose proof (dq_phi3_spec p W t _ rho Hr) as F3.
      fold X in F2, F3. fold X. fold rho. rewrite <- F2, <- F3. clear F2 F3.
      pose proof (pol_path (fun p => @dq_phi2 RNum p (o_dq o))) as G2. pose proof (pol_path (@dq_phi3 RNum)) as G3.
      rewrite <- G2, <- G3. exact C.
    - intros E. assert (exists a, p_assoc_comp p = [a]) as (a & Ea).
      { rewrite (w_na _ W) in E. destruct (p_assoc_comp p) as [ | a [ | b l]]; try discriminate. exists a; auto. }
      destruct (Ha a Ea) as (Hap & Hna & Hnb & Hs).
      apply (tr_assoc (lT L) p W Hph _ _ _ _ _ _ Tt Tv Tm PSz a Ea Hap Hna).
      + intros B. specialize (Hnb B). replace 67108864 with (2 ^ 26) by lra. exact Hnb.
      + eapply Bs; [apply (tr_emb _ _ (lT L)) | exact (tr_drho (lT L) p W Hph _ _ _ _ _ _ Tt Tv Tm PSz a Ea) | ].
        intros C. apply Hs. pose proof (assoc_deltarho p W Hph t v moles PS a Ea) as Ed. fold X in Ed. fold rho in Ed.
        change (Delta X t rho a a * rho a = / 2 ^ 26).
        rewrite <- Ed. rewrite sqrt_eps_R in C. replace 67108864 with (2 ^ 26) in C by lra. rewrite C.
        unfold drho. rewrite Bt, Bv, Bm. reflexivity.
  Qed.
End Res.
