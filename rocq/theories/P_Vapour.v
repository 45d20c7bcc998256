(** C62: the vapour at low pressure: it exists, it is the only dilute state of its pressure, and
    its volume is that of the ideal gas plus the second virial coefficient. *)
From Coq Require Import ZArith QArith Reals Lra Lia String List Bool.
From Coquelicot Require Import Coquelicot.
From Verif Require Import Num RNum RSum Tables M_Params F_Params M_Eos M_Virial Spec F_Spec F_SpecPolar F_SpecAssoc
  F_Contrib F_Cross F_Total F_Limit P_Limit P_Select F_Transfer XNum F_Transfer2 DNum F_Level P_Dual P_Dual2 F_Virial F_Taylor F_Virial2 Samples P_Split P_Conform P_Virial P_Close P_Npt P_Boyle P_Params P_DftD.
Import ListNotations.
Local Open Scope R_scope.
Set Bullet Behavior "Strict Subproofs".
Notation length := List.length.

(* ------------------------------------------------------------------ smooth at zero *)
(** k times differentiable around zero and once more at zero *)
Fixpoint smk (k : nat) (f : R -> R) : Prop :=
  match k with
  | O => ex_derive f 0
  | S k => exists g, locally 0 (fun y => is_derive f y (g y)) /\ smk k g
  end.
Lemma smk_le k : forall f, smk (S k) f -> smk k f.
Proof.
  induction k as [ | k IH]; intros f (g & A & B).
  - exists (g 0). exact (locally_singleton _ _ A).
  - exists g. split; auto.
Qed.
Lemma smk_cont k f : smk k f -> continuous f 0.
Proof. induction k as [ | k IH]; intros H; [apply (ex_derive_continuous f); exact H | apply IH, smk_le, H]. Qed.
Lemma smk_loc k : forall f g, locally 0 (fun y => f y = g y) -> smk k f -> smk k g.
Proof.
  induction k as [ | k IH]; intros f g E H.
  - eapply ex_derive_ext_loc; [exact E | exact H].
  - destruct H as (f1 & A & B). exists f1. split; auto.
    apply locally_locally in E. eapply filter_imp; [ | exact (filter_and _ _ E A)]. intros y (P & Q). eapply is_derive_ext_loc; [exact P | exact Q].
Qed.
Lemma smk_const k c : smk k (fun _ => c).
Proof.
  revert c. induction k as [ | k IH]; intros c; [apply (ex_derive_const c) | ]. exists (fun _ => 0). split; [ | apply IH].
  apply filter_forall. intros y. apply (is_derive_const c).
Qed.
Lemma smk_id k : smk k (fun u => u).
Proof.
  destruct k as [ | k]; [apply (ex_derive_id 0) | ]. exists (fun _ => 1). split; [ | apply smk_const].
  apply filter_forall. intros y. apply (is_derive_id y).
Qed.
Lemma smk_plus k : forall f g, smk k f -> smk k g -> smk k (fun u => f u + g u).
Proof.
  induction k as [ | k IH]; intros f g F G.
  - apply (ex_derive_plus f g); auto.
  - destruct F as (f1 & A1 & B1). destruct G as (g1 & A2 & B2). exists (fun u => f1 u + g1 u). split; [ | apply IH; auto].
    eapply filter_imp; [ | exact (filter_and _ _ A1 A2)]. intros y (P & Q). apply (is_derive_plus f g); auto.
Qed.
Lemma smk_mult k : forall f g, smk k f -> smk k g -> smk k (fun u => f u * g u).
Proof.
  induction k as [ | k IH]; intros f g F G.
  - apply (ex_derive_mult f g); auto.
  - pose proof (smk_le k f F) as F0. pose proof (smk_le k g G) as G0.
    destruct F as (f1 & A1 & B1). destruct G as (g1 & A2 & B2). exists (fun u => f1 u * g u + f u * g1 u). split.
    + eapply filter_imp; [ | exact (filter_and _ _ A1 A2)]. intros y (P & Q). apply (is_derive_mult f g y); auto. intros; apply Rmult_comm.
    + apply (smk_plus k (fun u => f1 u * g u) (fun u => f u * g1 u)); apply IH; auto.
Qed.
Lemma near_nz (f : R -> R) : continuous f 0 -> f 0 <> 0 -> locally 0 (fun y => f y <> 0).
Proof.
  intros C N. assert (Hp : 0 < Rabs (f 0)) by (apply Rabs_pos_lt; auto).
  destruct (proj1 (filterlim_locally f (f 0)) C (mkposreal _ Hp)) as (d & Hd). exists d. intros y Hy E.
  specialize (Hd y Hy). change (Rabs (f y - f 0) < Rabs (f 0)) in Hd. rewrite E, Rminus_0_l, Rabs_Ropp in Hd. lra.
Qed.
Lemma smk_inv k : forall f, f 0 <> 0 -> smk k f -> smk k (fun u => / f u).
Proof.
  induction k as [ | k IH]; intros f N F.
  - apply (ex_derive_inv f); auto.
  - pose proof (IH f N (smk_le k f F)) as I0. pose proof (near_nz f (smk_cont _ _ F) N) as L.
    destruct F as (f1 & A1 & B1). exists (fun u => (- 1) * (f1 u * (/ f u * / f u))). split.
    + eapply filter_imp; [ | exact (filter_and _ _ L A1)]. intros y (P & Q).
      replace (-1 * (f1 y * (/ f y * / f y))) with (- f1 y / f y ^ 2) by (field; auto). apply (is_derive_inv f y (f1 y)); auto.
    + apply (smk_mult k (fun _ => - 1)); [apply smk_const | ]. apply (smk_mult k f1); [auto | ]. apply (smk_mult k (fun u => / f u)); auto.
Qed.
Lemma smk_pow k l : smk k (fun u => u ^ l).
Proof. induction l as [ | l IH]; [exact (smk_const k 1) | ]. apply (smk_mult k (fun u => u) (fun u => u ^ l)); [apply smk_id | exact IH]. Qed.
Lemma smk_rsum k {A} (l : list A) (f : A -> R -> R) : (forall a, In a l -> smk k (f a)) -> smk k (fun u => rsum l (fun a => f a u)).
Proof.
  induction l as [ | a l IH]; intros H; cbn [rsum].
  - apply smk_const.
  - apply (smk_plus k (f a) (fun u => rsum l (fun a => f a u))); [apply H; left; auto | apply IH; intros b Hb; apply H; right; auto].
Qed.
Lemma smk_polyn k c n : smk k (polyn c n).
Proof. apply (smk_rsum k (seq 0 n) (fun l u => c l * u ^ l)). intros l _. apply (smk_mult k (fun _ => c l)); [apply smk_const | apply smk_pow]. Qed.

(** the polar terms beyond second order *)
Lemma pade_smooth alpha beta L K : alpha 0%nat <> 0 \/ (forall l, alpha l = 0) ->
  exists Psi V1, smk 2 Psi /\ forall v, V1 < v ->
    v * pade2 ((/ v) ^ 2 * polyn alpha (S L) (/ v)) ((/ v) ^ 3 * polyn beta K (/ v)) - v * ((/ v) ^ 2 * polyn alpha (S L) (/ v)) = v * Psi (/ v).
Proof.
  intros [H | H].
  - set (A := polyn alpha (S L)). set (B := polyn beta K). set (D := fun u => A u + (- 1) * (u * B u)).
    assert (SA : smk 2 A) by apply smk_polyn. assert (SB : smk 2 B) by apply smk_polyn.
    assert (SD : smk 2 D). { apply (smk_plus 2 A (fun u => -1 * (u * B u))); auto. apply (smk_mult 2 (fun _ => -1)); [apply smk_const | ]. apply (smk_mult 2 (fun u => u)); [apply smk_id | auto]. }
    assert (D0 : D 0 <> 0). { unfold D. rewrite Rmult_0_l, Rmult_0_r, Rplus_0_r. unfold A. rewrite polyn_0 by lia. auto. }
    destruct (continuous_loc_nz D (smk_cont 2 D SD) D0) as (V1 & P1 & HV).
    exists (fun u => u ^ 3 * (A u * (B u * / D u))), V1. split.
    + apply (smk_mult 2 (fun u => u ^ 3)); [apply smk_pow | ]. apply (smk_mult 2 A); auto. apply (smk_mult 2 B); auto. apply smk_inv; auto.
    + intros v Hv. specialize (HV v Hv). unfold D in HV |- *. rewrite <- Rmult_minus_distr_l, pade_diff.
      generalize dependent (A (/ v)). generalize (B (/ v)). intros b a Hd. assert (v <> 0) by lra. assert (Hi : (/ v) ^ 2 <> 0) by (apply pow_nonzero, Rinv_neq_0_compat; auto).
      destruct (Req_EM_T ((/ v) ^ 2 * a) ((/ v) ^ 3 * b)) as [E | E].
      * exfalso. apply Hd. apply Rmult_eq_reg_l with ((/ v) ^ 2); auto. lra.
      * replace ((/ v) ^ 2 * a - (/ v) ^ 3 * b) with ((/ v) ^ 2 * (a + -1 * (/ v * b))) by ring.
        generalize dependent (a + -1 * (/ v * b)). intros d Hd. field. auto.
  - exists (fun _ => 0), 0. split; [apply smk_const | ]. intros v Hv.
    assert (E : polyn alpha (S L) (/ v) = 0) by (unfold polyn; apply rsum_zero; intros; rewrite H; ring).
    rewrite E. unfold pade2, Rdiv. ring.
Qed.

(* ------------------------------------------------------------------ the dilute gas *)
Section Gas.
  (** energy per volume as a function of the density *)
  Variable Phi : R -> R.
  Hypothesis Sm : smk 2 Phi.
  Hypothesis Van : vanishes (fun v => v * Phi (/ v)).
  Variable B : R.
  Hypothesis HB : tends (fun v => v * (v * Phi (/ v))) B.

  Lemma gas_parts : exists g h, locally 0 (fun y => is_derive Phi y (g y)) /\ locally 0 (fun y => is_derive g y (h y)) /\ continuous h 0 /\
    Phi 0 = 0 /\ g 0 = 0 /\ h 0 = 2 * B.
  Proof.
    destruct Sm as (g & A & h & C & D). exists g, h. split; auto. split; auto. split; [apply (ex_derive_continuous h); exact D | ].
    pose proof (locally_singleton _ _ C) as C0.
    assert (F : flat 2 (fun y => Phi y - (Phi 0 + g 0 * y + h 0 / 2 * y ^ 2))).
    { apply (flat_step 1 _ (fun y => g y - (g 0 + h 0 * y))).
      - apply (is_derive_loc_minus Phi g (fun y => Phi 0 + g 0 * y + h 0 / 2 * y ^ 2)); auto. intros y. auto_derive; auto. field.
      - apply Rminus_diag_uniq. ring.
      - intros e He. eapply filter_imp; [ | exact (flat_derive g (h 0) C0 e He)]. intros y Hy. cbv beta in *.
        replace (g y - (g 0 + h 0 * y)) with (g y - g 0 - h 0 * y) by ring. exact Hy. }
    destruct (expand2 Phi _ _ _ F Van) as ((Z0 & Z1) & T). split; auto. split; auto.
    pose proof (tends_unique _ _ _ T HB). lra.
  Qed.
  (** pressure as a function of the density *)
  Lemma gas : exists u0 g P, 0 < u0 /\
    (forall u, 0 < u < u0 -> is_derive Phi u (g u)) /\ (forall u, P u = u - Phi u + u * g u) /\ P 0 = 0 /\
    (forall u w, 0 <= u < w -> w < u0 -> P u < P w) /\ (forall u, 0 <= u < u0 -> continuity_pt P u) /\
    tends (fun v => v * (v * P (/ v) - 1)) B.
  Proof.
    destruct gas_parts as (g & h & A & C & Ch & Z0 & Z1 & Eh).
    destruct (continuous_bound h Ch 1 Rlt_0_1) as (d & Hd & HBd). destruct A as (d1 & A). destruct C as (d2 & C).
    set (K := Rabs (2 * B) + 1). assert (PK : 0 < K) by (unfold K; pose proof (Rabs_pos (2 * B)); lra).
    set (u0 := Rmin d (Rmin d1 (Rmin d2 (/ (2 * K))))).
    assert (I : 0 < / (2 * K)) by (apply Rinv_0_lt_compat; lra).
    assert (P0 : 0 < u0) by (unfold u0; repeat apply Rmin_pos; auto; apply cond_pos).
    assert (L1 : u0 <= d) by apply Rmin_l. assert (L2 : u0 <= d1) by (eapply Rle_trans; [apply Rmin_r | apply Rmin_l]).
    assert (L3 : u0 <= d2) by (eapply Rle_trans; [apply Rmin_r | eapply Rle_trans; [apply Rmin_r | apply Rmin_l]]).
    assert (L4 : u0 <= / (2 * K)) by (eapply Rle_trans; [apply Rmin_r | eapply Rle_trans; [apply Rmin_r | apply Rmin_r]]). clearbody u0.
    assert (Dp : forall u, 0 <= u < u0 -> is_derive Phi u (g u)). { intros u Hu. apply A. change (Rabs (u - 0) < d1). rewrite Rminus_0_r, Rabs_right; lra. }
    assert (Dg : forall u, 0 <= u < u0 -> is_derive g u (h u)). { intros u Hu. apply C. change (Rabs (u - 0) < d2). rewrite Rminus_0_r, Rabs_right; lra. }
    set (P := fun u => u - Phi u + u * g u).
    assert (DP : forall u, 0 <= u < u0 -> is_derive P u (1 + u * h u)).
    { intros u Hu. unfold P. replace (1 + u * h u) with (1 - g u + (1 * g u + u * h u)) by ring.
      apply (is_derive_plus (fun u => u - Phi u) (fun u => u * g u)).
      - apply (is_derive_minus (fun u => u) Phi); [apply (is_derive_id u) | auto].
      - apply (is_derive_mult (fun u => u) g); [apply (is_derive_id u) | auto | intros; apply Rmult_comm]. }
    assert (Pos : forall u, 0 <= u < u0 -> 0 < 1 + u * h u).
    { intros u Hu. assert (Rabs (h u - h 0) < 1) by (apply HBd; lra). assert (Rabs (h u) <= K).
      { replace (h u) with ((h u - h 0) + h 0) by ring. eapply Rle_trans; [apply Rabs_triang | ]. rewrite Eh. unfold K. rewrite Eh in H. lra. }
      assert (Rabs (u * h u) <= / 2).
      { rewrite Rabs_mult, (Rabs_right u) by lra. apply Rle_trans with (/ (2 * K) * K); [ | right; field; lra]. apply Rmult_le_compat; try lra. apply Rabs_pos. }
      pose proof (Rcomplements.Rabs_maj2 (u * h u)). lra. }
    exists u0, g, P. split; auto. split; [intros u Hu; apply Dp; lra | ]. split; [reflexivity | ]. split; [unfold P; rewrite Z0; ring | ]. split; [ | split].
    - intros u w Hu Hw. destruct (MVT_gen P u w (fun x => 1 + x * h x)) as (c & Hc & E).
      + intros z Hz. rewrite Rmin_left, Rmax_right in Hz by lra. apply DP. lra.
      + intros z Hz. rewrite Rmin_left, Rmax_right in Hz by lra. apply continuity_pt_filterlim. apply (ex_derive_continuous P). eexists. apply DP. lra.
      + rewrite Rmin_left, Rmax_right in Hc by lra. pose proof (Pos c ltac:(lra)). assert (0 < (1 + c * h c) * (w - u)) by (apply Rmult_lt_0_compat; lra). lra.
    - intros u Hu. apply continuity_pt_filterlim. apply (ex_derive_continuous P). eexists. apply DP. lra.
    - assert (Tg : tends (fun v => v * g (/ v)) (2 * B)).
      { pose proof (flat_v 1 _ (flat_derive g (h 0) (Dg 0 ltac:(lra)))) as Fv. cbv beta in Fv. rewrite Z1, Eh in Fv.
        apply (vanishes_eventually _ _ 0) with (2 := Fv). intros v Hv. generalize (g (/ v)). intros y. field. lra. }
      replace B with (- 1 * B + 2 * B) by ring.
      apply (tends_eventually _ (fun v => -1 * (v * (v * Phi (/ v))) + v * g (/ v)) _ 0).
      + intros v Hv. unfold P. generalize (g (/ v)) (Phi (/ v)). intros a b. field. lra.
      + apply (tends_plus (fun v => -1 * (v * (v * Phi (/ v)))) (fun v => v * g (/ v))); auto.
        apply (tends_scal (-1) (fun v => v * (v * Phi (/ v)))). exact HB.
  Qed.
  Lemma gas_volume (P : R -> R) : tends (fun v => v * (v * P (/ v) - 1)) B -> tends (fun v => v - / P (/ v)) B.
  Proof.
    intros T. set (w := fun v => v * (v * P (/ v) - 1)). set (K := Rabs B + 1). assert (PK : 0 < K) by (unfold K; pose proof (Rabs_pos B); lra).
    intros e He. destruct (T (Rmin 1 (e / 2)) ltac:(apply Rmin_pos; lra)) as (V0 & HV).
    exists (Rmax V0 (Rmax (2 * K) (4 * K * K / e))). intros v Hv.
    pose proof (Rmax_l V0 (Rmax (2 * K) (4 * K * K / e))). pose proof (Rmax_r V0 (Rmax (2 * K) (4 * K * K / e))).
    pose proof (Rmax_l (2 * K) (4 * K * K / e)). pose proof (Rmax_r (2 * K) (4 * K * K / e)).
    specialize (HV v ltac:(lra)). fold (w v) in HV. pose proof (Rmin_l 1 (e / 2)). pose proof (Rmin_r 1 (e / 2)).
    assert (Pv : 0 < v) by lra.
    assert (Bw : Rabs (w v) < K). { replace (w v) with ((w v - B) + B) by ring. eapply Rle_lt_trans; [apply Rabs_triang | ]. unfold K. lra. }
    assert (Ep : P (/ v) = (1 + w v / v) / v) by (unfold w; field; lra).
    assert (Q : Rabs (w v / v) < / 2).
    { unfold Rdiv. rewrite Rabs_mult, (Rabs_right (/ v)) by (left; apply Rinv_0_lt_compat; auto).
      apply Rmult_lt_reg_r with v; auto. rewrite Rmult_assoc, Rinv_l by lra. lra. }
    set (q := w v / v) in *. assert (Ew : w v = q * v) by (unfold q; field; lra). apply Rabs_def2 in Q.
    rewrite Ep. replace (v - / ((1 + q) / v) - B) with ((w v - B) - w v * (q / (1 + q))) by (rewrite Ew; field; split; lra).
    eapply Rle_lt_trans; [apply Rabs_triang | ]. rewrite Rabs_Ropp, Rabs_mult.
    assert (Q2 : Rabs (w v) * Rabs (q / (1 + q)) <= e / 2).
    { apply Rle_trans with (K * (2 * (K / v))).
      - apply Rmult_le_compat; [apply Rabs_pos | apply Rabs_pos | lra | ].
        unfold Rdiv at 1. rewrite Rabs_mult, Rmult_comm. apply Rmult_le_compat; [apply Rabs_pos | apply Rabs_pos | | ].
        + rewrite Rabs_right by (left; apply Rinv_0_lt_compat; lra). rewrite <- (Rinv_inv 2). apply Rinv_le_contravar; lra.
        + unfold q, Rdiv. rewrite Rabs_mult, (Rabs_right (/ v)) by (left; apply Rinv_0_lt_compat; auto). apply Rmult_le_compat_r; [left; apply Rinv_0_lt_compat; auto | lra].
      - apply Rmult_le_reg_r with (2 * v / e); [apply Rdiv_lt_0_compat; lra | ]. replace (K * (2 * (K / v)) * (2 * v / e)) with (4 * K * K / e) by (field; lra). replace (e / 2 * (2 * v / e)) with v by (field; lra). lra. }
    lra.
  Qed.
  (** Exactly one dilute state for every low pressure. *)
  Lemma gas_root Vm : exists V0 P, 0 < V0 /\ Vm <= V0 /\ (forall v, V0 < v -> exists r, is_derive (fun v => v * Phi (/ v)) v r /\ P v = / v - r) /\
    (forall va vb, V0 < va < vb -> P vb < P va) /\
    forall e, 0 < e -> exists P0, 0 < P0 /\ forall Q, 0 < Q < P0 -> exists v, V0 < v /\ P v = Q /\ Rabs (v - (/ Q + B)) < e.
  Proof.
    destruct gas as (u0 & g & P & Hu & Dp & EP & P00 & Mono & Cont & T). exists (Rmax (2 / u0) Vm), (fun v => P (/ v)).
    pose proof (Rmax_l (2 / u0) Vm) as ML.
    assert (I0 : 0 < 2 / u0) by (apply Rdiv_lt_0_compat; lra).
    assert (Iv : forall v, 2 / u0 < v -> 0 < / v < u0).
    { intros v Hv. assert (0 < v) by lra. split; [apply Rinv_0_lt_compat; auto | ]. apply Rlt_trans with (/ (2 / u0)); [apply Rinv_lt_contravar; [apply Rmult_lt_0_compat; auto | auto] | ].
      replace (/ (2 / u0)) with (u0 / 2) by (field; lra). lra. }
    assert (Mv : forall va vb, 2 / u0 < va < vb -> P (/ vb) < P (/ va)).
    { intros va vb H. apply Mono; [ | apply Iv; lra]. split; [left; apply Iv; lra | apply Rinv_lt_contravar; [apply Rmult_lt_0_compat; lra | lra]]. }
    split; [lra | ]. split; [apply Rmax_r | ]. split; [ | split; [intros va vb H; apply Mv; lra | ]].
    - intros v Hv0. assert (Hv : 2 / u0 < v) by lra. exists (Phi (/ v) - / v * g (/ v)). split; [ | rewrite EP; ring]. assert (0 < v) by lra.
      replace (Phi (/ v) - / v * g (/ v)) with (1 * Phi (/ v) + v * (- 1 / v ^ 2 * g (/ v))) by (generalize (Phi (/ v)) (g (/ v)); intros; field; lra).
      apply (is_derive_mult (fun v => v) (fun v => Phi (/ v))); [apply (is_derive_id v) | | intros; apply Rmult_comm].
      apply (is_derive_comp Phi (fun v => / v)); [apply Dp; apply Iv; auto | ]. auto_derive; [lra | field; lra].
    - intros e He. destruct (gas_volume P T e He) as (V1 & HV).
      set (V0 := Rmax (2 / u0) Vm) in *. set (W := Rmax V1 V0 + 1). pose proof (Rmax_l V1 V0). pose proof (Rmax_r V1 V0).
      assert (HW : 2 / u0 < W) by (unfold W; lra). destruct (Iv W HW) as (U1 & U2).
      exists (P (/ W)). split; [rewrite <- P00; apply Mono; lra | ]. intros Q HQ.
      destruct (Ranalysis5.IVT_interv (fun u => P u - Q) 0 (/ W)) as (u & Hr & Eu).
      + intros a Ha. apply continuity_pt_minus; [apply Cont; lra | apply continuity_pt_const; intros ? ?; reflexivity].
      + lra.
      + rewrite P00. lra.
      + lra.
      + assert (Nu : u <> 0) by (intros E; rewrite E, P00 in Eu; lra). assert (Nw : u <> / W) by (intros E; rewrite E in Eu; lra).
        assert (Pu : 0 < u < / W) by lra. exists (/ u). rewrite Rinv_inv.
        assert (HW2 : W < / u) by (rewrite <- (Rinv_inv W); apply Rinv_lt_contravar; [apply Rmult_lt_0_compat; lra | lra]).
        split; [unfold W in HW2; lra | ]. split; [lra | ]. specialize (HV (/ u) ltac:(unfold W in HW2; lra)). rewrite Rinv_inv in HV.
        replace (P u) with Q in HV by lra. replace (/ u - (/ Q + B)) with (/ u - / Q - B) by ring. exact HV.
  Qed.
End Gas.

(* ------------------------------------------------------------------ the equation of state *)
Section Vapour.
  Variables (prs : list (pure_record RNum)) (bin : list (list R)) (p : params RNum).
  Hypothesis Hp : from_records prs bin = Some p.
  Hypothesis Hph : phys p.
  Variables (t : R) (x : list R).
  Hypothesis Ht : 0 < t.
  Hypothesis Hlen : length x = length (p_m p).
  Hypothesis Hnn : forall i, (i < length (p_m p))%nat -> 0 <= nth i x 0.
  Hypothesis Hsum : rsum x (fun xi => xi) = 1.
  Let W : wfp p := wfp_from_records _ _ _ Hp.
  Let X := mix_of p.
  Let nn := fun i => nth i x 0.
  Let rho (v : R) := fun i => nth i x 0 / v.
  Let st (v : R) := @state_new RNum t v x.
  Let Hne := frac_ne p x Hlen Hsum.
  Let total1 : (Sum i < length (p_m p), nth i x 0) = 1.
  Proof. rewrite <- Hlen. rewrite <- Hsum. symmetry. apply (rsum_nth x 0 (fun xi => xi)). Qed.

  Lemma dd_0 : dd_alpha p t x 0 = B_dd X t nn.
  Proof. unfold dd_alpha, pair_coef, pair_int, B_dd, J0. fold X nn. rewrite pow_O, Rmult_1_r. reflexivity. Qed.
  Lemma qq_0 : qq_alpha p t x 0 = B_qq X t nn.
  Proof. unfold qq_alpha, pair_coef, pair_int, B_qq, J0. fold X nn. rewrite pow_O, Rmult_1_r. reflexivity. Qed.
  Lemma dq_0 var : dq_alpha p t x var 0 = B_dq X t nn (fst (dq_exps var)) (snd (dq_exps var)).
  Proof. unfold dq_alpha, pair_coef, pair_int, B_dq, J0. fold X nn. rewrite pow_O, Rmult_1_r. reflexivity. Qed.

  Lemma no_mu : p_ndipole p = 0%nat -> forall i, (i < length (p_m p))%nat -> Mu2 X i = 0.
  Proof.
    intros H i Hi. rewrite (w_nd _ W), (w_dip _ W) in H. apply length_zero_iff_nil in H.
    destruct (@nonzero RNum (Mu2 X i)) eqn:E; [ | apply nonzero_R_false; exact E].
    exfalso. assert (K : In i (filter (fun i => @nonzero RNum (@ix RNum (p_mu2 p) i)) (seq 0 (length (p_m p))))) by (apply filter_In; split; [apply seq_in; auto | exact E]).
    rewrite H in K. exact K.
  Qed.
  Lemma no_qu : p_nquadpole p = 0%nat -> forall i, (i < length (p_m p))%nat -> Qu2 X i = 0.
  Proof.
    intros H i Hi. rewrite (w_nq _ W), (w_quad _ W) in H. apply length_zero_iff_nil in H.
    destruct (@nonzero RNum (Qu2 X i)) eqn:E; [ | apply nonzero_R_false; exact E].
    exfalso. assert (K : In i (filter (fun i => @nonzero RNum (@ix RNum (p_q2 p) i)) (seq 0 (length (p_m p))))) by (apply filter_In; split; [apply seq_in; auto | exact E]).
    rewrite H in K. exact K.
  Qed.

  Section Regular.
    Variable o : options RNum.
    (** no polar contribution present in the mixture vanishes in the limit of low density *)
    Hypothesis Hdd : p_ndipole p = 0%nat \/ B_dd X t nn <> 0.
    Hypothesis Hqq : p_nquadpole p = 0%nat \/ B_qq X t nn <> 0.
    Hypothesis Hdq : p_ndipole p = 0%nat \/ p_nquadpole p = 0%nat \/ B_dq X t nn (fst (dq_exps (o_dq o))) (snd (dq_exps (o_dq o))) <> 0.
    Hypothesis Hone : (p_nassoc p <= 1)%nat.
    Hypothesis Has : forall a, p_assoc_comp p = [a] -> assoc_phys p /\ 0 < Na X a /\ (0 < Nb X a -> Na X a + Nb X a <= 2 ^ 26).

    Lemma alpha_dd : dd_alpha p t x 0 <> 0 \/ (forall l, dd_alpha p t x l = 0).
    Proof.
      destruct Hdd as [H | H]; [right | left; rewrite dd_0; exact H]. apply pair_none. intros i j Hi. fold X. rewrite (no_mu H i Hi). ring.
    Qed.
    Lemma alpha_qq : qq_alpha p t x 0 <> 0 \/ (forall l, qq_alpha p t x l = 0).
    Proof.
      destruct Hqq as [H | H]; [right | left; rewrite qq_0; exact H]. apply pair_none. intros i j Hi. fold X. rewrite (no_qu H i Hi). ring.
    Qed.
    Lemma alpha_dq : dq_alpha p t x (o_dq o) 0 <> 0 \/ (forall l, dq_alpha p t x (o_dq o) l = 0).
    Proof.
      destruct Hdq as [H | [H | H]]; [right | right | left; rewrite dq_0; exact H].
      - apply pair_none. intros i j Hi. fold X. rewrite (no_mu H i Hi). ring.
      - apply pair_none_r. intros i j Hj. fold X. rewrite (no_qu H j Hj). ring.
    Qed.
    Lemma apart alpha beta L K : alpha 0%nat <> 0 -> exists V1, forall v, V1 < v ->
      (/ v) ^ 2 * polyn alpha (S L) (/ v) <> (/ v) ^ 3 * polyn beta K (/ v).
    Proof.
      intros H. set (D := fun u => polyn alpha (S L) u + (- 1) * (u * polyn beta K u)).
      assert (SD : smk 0 D). { apply (smk_plus 0 (polyn alpha (S L)) (fun u => -1 * (u * polyn beta K u))); [apply smk_polyn | ]. apply (smk_mult 0 (fun _ => -1)); [apply smk_const | ]. apply (smk_mult 0 (fun u => u)); [apply smk_id | apply smk_polyn]. }
      assert (D0 : D 0 <> 0). { unfold D. rewrite Rmult_0_l, Rmult_0_r, Rplus_0_r, polyn_0 by lia. auto. }
      destruct (continuous_loc_nz D (smk_cont 0 D SD) D0) as (V1 & P1 & HV). exists V1. intros v Hv E. apply (HV v Hv).
      assert (Hi : (/ v) ^ 2 <> 0) by (apply pow_nonzero, Rinv_neq_0_compat; lra).
      apply Rmult_eq_reg_l with ((/ v) ^ 2); auto. unfold D. rewrite Rmult_0_r, Rmult_plus_distr_l, E. ring.
    Qed.
    Lemma eventually_regular : exists V1, forall v, V1 < v -> regular_point p t v x o.
    Proof.
      assert (A1 : exists V1, forall v, V1 < v -> p_ndipole p <> 0%nat -> dd2 X t (rho v) <> dd3 X t (rho v)).
      { destruct Hdd as [H | H]; [exists 0; intros; contradiction | ]. rewrite <- dd_0 in H.
        destruct (apart _ (dd_beta p t x) 4 4 H) as (V1 & HV). exists V1. intros v Hv _. unfold X, rho. rewrite dd2_v, dd3_v. apply HV; auto. }
      assert (A2 : exists V1, forall v, V1 < v -> p_nquadpole p <> 0%nat -> qq2_code X t (rho v) <> qq3 X t (rho v)).
      { destruct Hqq as [H | H]; [exists 0; intros; contradiction | ]. rewrite <- qq_0 in H.
        destruct (apart _ (qq_beta p t x) 4 4 H) as (V1 & HV). exists V1. intros v Hv _. unfold X, rho. rewrite qq2_v, qq3_v. apply HV; auto. }
      assert (A3 : exists V1, forall v, V1 < v -> p_ndipole p <> 0%nat -> p_nquadpole p <> 0%nat ->
         dq2 X t (rho v) (fst (dq_exps (o_dq o))) (snd (dq_exps (o_dq o))) <> dq3 X t (rho v)).
      { destruct Hdq as [H | [H | H]]; [exists 0; intros; contradiction | exists 0; intros; contradiction | ]. rewrite <- dq_0 in H.
        destruct (apart _ (dq_beta p t x) 3 3 H) as (V1 & HV). exists V1. intros v Hv _ _. unfold X, rho. rewrite dq2_v, dq3_v. apply HV; auto. }
      assert (A4 : exists V1, forall v, V1 < v -> forall a, p_assoc_comp p = [a] -> Delta X t (rho v) a a * rho v a <> / 2 ^ 26).
      { destruct (p_assoc_comp p) as [ | a [ | b r]] eqn:Ea; [exists 0; discriminate | | exists 0; discriminate].
        set (K := Sij X a a ^ 3 * Kapij X a a * (exp ((Eab X a + Eab X a) / 2 / t) - 1)).
        set (d := fun u => g_u p t x a a u * K * (u * nn a) + (- / 2 ^ 26)).
        assert (Ed : ex_derive d 0).
        { apply (ex_derive_plus (fun u => g_u p t x a a u * K * (u * nn a)) (fun _ => - / 2 ^ 26)); [ | apply ex_derive_const].
          eexists. apply (bd_derive p t x a). }
        destruct (continuous_loc_nz d (ex_derive_continuous _ _ Ed)) as (V1 & _ & HV).
        { unfold d. rewrite Rmult_0_l, Rmult_0_r, Rplus_0_l. apply Ropp_neq_0_compat, Rinv_neq_0_compat, pow_nonzero. lra. }
        exists V1. intros v Hv b Hb E. injection Hb as <-. apply (HV v Hv). unfold d.
        pose proof (bd_v p t x a v) as Eb. fold X in Eb. fold K in Eb. change (Delta X t (rho v) a a * rho v a = g_u p t x a a (/ v) * K * (/ v * nn a)) in Eb.
        rewrite <- Eb, E. ring. }
      destruct A1 as (V1 & H1). destruct A2 as (V2 & H2). destruct A3 as (V3 & H3). destruct A4 as (V4 & H4).
      exists (Rmax V1 (Rmax V2 (Rmax V3 V4))). intros v Hv.
      pose proof (Rmax_l V1 (Rmax V2 (Rmax V3 V4))). pose proof (Rmax_r V1 (Rmax V2 (Rmax V3 V4))).
      pose proof (Rmax_l V2 (Rmax V3 V4)). pose proof (Rmax_r V2 (Rmax V3 V4)). pose proof (Rmax_l V3 V4). pose proof (Rmax_r V3 V4).
      split; [apply H1; lra | ]. split; [apply H2; lra | ]. split; [apply H3; lra | ]. split; [exact Hone | ].
      intros a Ha. destruct (Has a Ha) as (Q1 & Q2 & Q3). split; auto. split; auto. split; auto. apply H4; auto. lra.
    Qed.

    (** residual energy of the dilute fluid *)
    Lemma dilute lu : exists Phi V1, smk 2 Phi /\ close p t x <= V1 /\
      forall v, V1 < v -> residual lu (with_options p o) (st v) = Some (v * Phi (/ v)).
    Proof.
      destruct (zero_density _ _ _ Hp Hph t x Ht Hlen Hnn Hsum 3 (fun _ _ => None) o) as (a & E & Rep).
      destruct (Rep [true; true; true] eq_refl) as (r & Ec & Pr). cbn [repeat] in Pr.
      set (F := fun r => low p o (@state_virial RNum t r x)).
      assert (SF : smk 2 F). { destruct (partial3_inv F r Pr) as (g & h & D1 & D2 & D3). exists g. split; auto. exists h. split; auto. exists r. exact D3. }
      destruct (pade_smooth _ (dd_beta p t x) 4 4 alpha_dd) as (Y1 & U1 & S1 & G1).
      destruct (pade_smooth _ (qq_beta p t x) 4 4 alpha_qq) as (Y2 & U2 & S2 & G2).
      destruct (pade_smooth _ (dq_beta p t x) 3 3 alpha_dq) as (Y3 & U3 & S3 & G3).
      destruct (full_residual p t x lu o) as (V1 & HR).
      exists (fun u => F u + (Y1 u + (Y2 u + Y3 u))), (Rmax (close p t x) (Rmax V1 (Rmax U1 (Rmax U2 U3)))).
      split; [ | split; [apply Rmax_l | ]].
      - apply (smk_plus 2 F); auto. apply (smk_plus 2 Y1); auto. apply (smk_plus 2 Y2); auto.
      - intros v Hv.
        pose proof (Rmax_l (close p t x) (Rmax V1 (Rmax U1 (Rmax U2 U3)))). pose proof (Rmax_r (close p t x) (Rmax V1 (Rmax U1 (Rmax U2 U3)))).
        pose proof (Rmax_l V1 (Rmax U1 (Rmax U2 U3))). pose proof (Rmax_r V1 (Rmax U1 (Rmax U2 U3))).
        pose proof (Rmax_l U1 (Rmax U2 U3)). pose proof (Rmax_r U1 (Rmax U2 U3)). pose proof (Rmax_l U2 U3). pose proof (Rmax_r U2 U3).
        assert (Hc : close p t x < v) by lra. pose proof (close_pos p Hph t x Ht Hnn Hne) as Pc. assert (Pv : 0 < v) by lra.
        unfold st. rewrite HR by lra. f_equal. rewrite (full_low p t x o v Hc).
        rewrite (dipole_v _ _ _ Hp Hph t x Ht Hlen Hnn Hsum v Hc), (quadrupole_v _ _ _ Hp Hph t x Ht Hlen Hnn Hsum v Hc), (dq_v _ _ _ Hp Hph t x Ht Hlen Hnn Hsum _ v Hc).
        rewrite (dd2_term_v prs bin p Hp Hph t x Hlen), (qq2_term_v prs bin p Hp Hph t x Hlen), (dq2_term_v prs bin p Hp Hph t x Hlen).
        rewrite G1, G2, G3 by lra. unfold F. rewrite (low_scaled p t x Hsum o v Pv). generalize (low p o (@state_new RNum t v x)). intros y. generalize (Y1 (/ v)) (Y2 (/ v)) (Y3 (/ v)). intros. field. lra.
    Qed.
    Lemma reg2 alpha beta : alpha 0%nat <> 0 \/ (forall l, alpha l = 0) -> regular2 alpha beta.
    Proof. intros [H | H]; apply strong_regular2; [right | left]; auto. Qed.

    Theorem C62_vapour lu2 lu3 : exists V0 B, close p t x <= V0 /\ second_virial lu3 p o t x = Some (Fin B) /\
      (forall v, V0 < v -> exists P, reduced_pressure p t x lu2 o v P) /\
      (forall va vb Pa Pb, V0 < va < vb -> reduced_pressure p t x lu2 o va Pa -> reduced_pressure p t x lu2 o vb Pb -> Pb < Pa) /\
      forall eps, 0 < eps -> exists P0, 0 < P0 /\ forall P, 0 < P < P0 ->
        exists v, V0 < v /\ reduced_pressure p t x lu2 o v P /\ Rabs (v - (1 / P + B)) < eps /\
          forall v', V0 < v' -> reduced_pressure p t x lu2 o v' P -> v' = v.
    Proof.
      destruct (dilute (fun _ _ => None)) as (Phi & V1 & SP & HV1 & EP).
      destruct (C40_second_virial _ _ _ Hp Hph t x Ht Hlen Hnn Hsum (fun _ _ => None) lu3 o (reg2 _ _ alpha_dd) (reg2 _ _ alpha_qq) (reg2 _ _ alpha_dq)) as (B & EB & HB).
      destruct eventually_regular as (V2 & Rg).
      assert (TB : tends (fun v => v * (v * Phi (/ v))) B).
      { intros e He. destruct (HB e He) as (Va & Hva). exists (Rmax Va V1). intros v Hv. pose proof (Rmax_l Va V1). pose proof (Rmax_r Va V1).
        destruct (Hva v ltac:(lra)) as (r & E1 & E2). fold (st v) in E1. rewrite EP in E1 by lra. apply Some_inj in E1. rewrite E1. exact E2. }
      assert (Van : vanishes (fun v => v * Phi (/ v))).
      { intros e He. destruct (TB 1 Rlt_0_1) as (Va & Hva). exists (Rmax Va (Rmax 1 ((Rabs B + 1) / e))). intros v Hv.
        pose proof (Rmax_l Va (Rmax 1 ((Rabs B + 1) / e))). pose proof (Rmax_r Va (Rmax 1 ((Rabs B + 1) / e))). pose proof (Rmax_l 1 ((Rabs B + 1) / e)). pose proof (Rmax_r 1 ((Rabs B + 1) / e)).
        specialize (Hva v ltac:(lra)). cbv beta in Hva. set (y := v * Phi (/ v)) in *. assert (Q : Rabs (v * y) < Rabs B + 1).
        { replace (v * y) with ((v * y - B) + B) by ring. eapply Rle_lt_trans; [apply Rabs_triang | ]. lra. }
        rewrite Rabs_mult, (Rabs_right v) in Q by lra. apply Rmult_lt_reg_l with v; [lra | ]. eapply Rlt_trans; [exact Q | ].
        apply Rmult_lt_reg_r with (/ e); [apply Rinv_0_lt_compat; auto | ]. rewrite Rmult_assoc, Rinv_r by lra. unfold Rdiv in *. lra. }
      destruct (gas_root Phi SP Van B TB (Rmax V1 V2)) as (V0 & Pr & P0 & Hm & HD & Mono & Ex).
      pose proof (Rmax_l V1 V2). pose proof (Rmax_r V1 V2).
      assert (RP : forall v, V0 < v -> forall P, reduced_pressure p t x lu2 o v P <-> P = Pr v).
      { intros v Hv. assert (PS : phys_state p t v x) by (apply (PSv p Hph t x Ht Hlen Hnn Hne); lra).
        destruct (C08_pressure _ _ _ Hp Hph t v x PS (fun _ _ => None) lu2 o (Rg v ltac:(lra))) as (A & r & E1 & E2 & E3).
        destruct (HD v Hv) as (r' & D1 & D2).
        assert (Er : r = r').
        { apply is_derive_unique in D1. rewrite <- D1. symmetry. apply is_derive_unique. eapply is_derive_ext_loc; [ | exact E3].
          assert (Hd : 0 < v - V1) by lra. exists (mkposreal _ Hd). intros y Hy. change (Rabs (y - v) < v - V1) in Hy. apply Rabs_def2 in Hy.
          apply Some_inj. rewrite <- E1. apply EP. lra. }
        subst r'. intros P. unfold reduced_pressure. rewrite total1. split.
        - intros (a & r2 & E & <-). rewrite E2 in E. apply Some_inj in E. injection E as _ E. rewrite D2, <- E. unfold Rdiv. ring.
        - intros ->. exists (A v), r. split; [exact E2 | ]. rewrite D2. unfold Rdiv. ring. }
      exists V0, B. split; [lra | ]. split; [exact EB | ]. split; [ | split].
      - intros v Hv. exists (Pr v). apply RP; auto.
      - intros va vb Pa Pb Hv Ha Hb. apply RP in Ha; [ | lra]. apply RP in Hb; [ | lra]. subst. apply Mono; auto.
      - intros e He. destruct (Ex e He) as (Q0 & HQ & H1). exists Q0. split; auto. intros P HP.
        destruct (H1 P HP) as (v & Hv & Ev & Hd). exists v. split; auto. split; [apply RP; auto | ]. split; [unfold Rdiv; rewrite Rmult_1_l; exact Hd | ].
        intros v' Hv' H'. apply RP in H'; auto. destruct (Rtotal_order v v') as [L | [L | L]]; auto; exfalso.
        + pose proof (Mono v v' ltac:(lra)). lra.
        + pose proof (Mono v' v ltac:(lra)). lra.
    Qed.
  End Regular.

  (** Every component present, polar components with at least one segment and not below their dispersion energy. *)
  Section Warm.
    Hypothesis Hpos : forall i, (i < length (p_m p))%nat -> 0 < nth i x 0.
    Hypothesis warm : forall i, (i < length (p_m p))%nat ->
      @ix RNum (p_mu2 p) i <> 0 \/ @ix RNum (p_q2 p) i <> 0 -> 1 <= @ix RNum (p_m p) i /\ @ix RNum (p_epsilon_k p) i <= t.
    Let W_pos k i : (i < length (p_m p))%nat -> 0 < Wi X t k i.
    Proof.
      intros Hi. destruct (Hph i Hi) as (A & B & C). unfold Wi. apply Rmult_lt_0_compat; [apply Rdiv_lt_0_compat; auto | apply pow_lt; exact B].
    Qed.
    Let S_pos k i j : (i < length (p_m p))%nat -> (j < length (p_m p))%nat -> 0 < / Sij X i j ^ k.
    Proof. intros Hi Hj. apply Rinv_0_lt_compat, pow_lt. apply (Sij_p p Hph); auto. Qed.
    Let mu_nn i : (i < length (p_m p))%nat -> 0 <= Mu2 X i := mu2_nn _ _ p Hp Hph i.
    Let qu_nn i : (i < length (p_m p))%nat -> 0 <= Qu2 X i := qu2_nn _ _ p Hp Hph i.
    Lemma some_mu : p_ndipole p <> 0%nat -> exists i, (i < length (p_m p))%nat /\ Mu2 X i <> 0.
    Proof.
      intros H. rewrite (w_nd _ W), (w_dip _ W) in H.
      destruct (filter (fun i => @nonzero RNum (@ix RNum (p_mu2 p) i)) (seq 0 (length (p_m p)))) as [ | i l] eqn:E; [exfalso; apply H; reflexivity | ].
      assert (K : In i (filter (fun i => @nonzero RNum (@ix RNum (p_mu2 p) i)) (seq 0 (length (p_m p))))) by (rewrite E; left; auto).
      apply filter_In in K. destruct K as (K1 & K2). exists i. split; [apply seq_in; auto | apply nonzero_R; exact K2].
    Qed.
    Lemma some_qu : p_nquadpole p <> 0%nat -> exists i, (i < length (p_m p))%nat /\ Qu2 X i <> 0.
    Proof.
      intros H. rewrite (w_nq _ W), (w_quad _ W) in H.
      destruct (filter (fun i => @nonzero RNum (@ix RNum (p_q2 p) i)) (seq 0 (length (p_m p)))) as [ | i l] eqn:E; [exfalso; apply H; reflexivity | ].
      assert (K : In i (filter (fun i => @nonzero RNum (@ix RNum (p_q2 p) i)) (seq 0 (length (p_m p))))) by (rewrite E; left; auto).
      apply filter_In in K. destruct K as (K1 & K2). exists i. split; [apply seq_in; auto | apply nonzero_R; exact K2].
    Qed.
    Lemma sum2_pos (f : nat -> nat -> R) a b : (a < length (p_m p))%nat -> (b < length (p_m p))%nat ->
      (forall i j, (i < length (p_m p))%nat -> (j < length (p_m p))%nat -> 0 <= f i j) -> 0 < f a b -> 0 < Sum i < N X, Sum j < N X, f i j.
    Proof.
      intros Ha Hb H P. change (N X) with (length (p_m p)). apply (rsum_pos _ _ a); [ | apply seq_in; auto | ].
      - intros i Hi. apply seq_in in Hi. apply rsum_nonneg. intros j Hj. apply seq_in in Hj. auto.
      - apply (rsum_pos _ _ b); [ | apply seq_in; auto | auto]. intros j Hj. apply seq_in in Hj. auto.
    Qed.
    (** a pair of moments and its weight *)
    Lemma pair_pos (w mi mj J : R) : 0 < w -> 0 <= mi -> 0 <= mj -> (mi <> 0 -> mj <> 0 -> 0 < J) -> 0 <= w * mi * mj * J /\ (mi <> 0 -> mj <> 0 -> 0 < w * mi * mj * J).
    Proof.
      intros Hw Hi Hj HJ. assert (Q : mi <> 0 -> mj <> 0 -> 0 < w * mi * mj * J).
      { intros A B. repeat apply Rmult_lt_0_compat; auto; lra. }
      split; auto. destruct (Req_dec mi 0) as [-> | A]; [lra | ]. destruct (Req_dec mj 0) as [-> | B]; [lra | ]. left; auto.
    Qed.
    Let range i j : (i < length (p_m p))%nat -> (j < length (p_m p))%nat -> polar p i -> polar p j -> 1 <= m2 X i j <= 2 /\ 0 <= Eij0 X i j / t <= 1
      := fun Hi Hj => pair_range p Hph t Ht warm i j Hi Hj.
    Lemma B_dd_nz : p_ndipole p = 0%nat \/ B_dd X t nn <> 0.
    Proof.
      destruct (Nat.eq_dec (p_ndipole p) 0) as [E | E]; [left; auto | right]. destruct (some_mu E) as (a & Ha & Ma).
      unfold B_dd. pose proof PI_RGT_0 as Pp. apply Rmult_integral_contrapositive_currified; [lra | ]. apply Rgt_not_eq.
      assert (K : forall i j, (i < length (p_m p))%nat -> (j < length (p_m p))%nat ->
        let y := nn i * nn j * (Wi X t 3 i * Wi X t 3 j / Sij X i j ^ 3 * Mu2 X i * Mu2 X j) * J0 X t AD BD i j in
        0 <= y /\ (Mu2 X i <> 0 -> Mu2 X j <> 0 -> 0 < y)).
      { intros i j Hi Hj. cbv zeta.
        replace (nn i * nn j * (Wi X t 3 i * Wi X t 3 j / Sij X i j ^ 3 * Mu2 X i * Mu2 X j) * J0 X t AD BD i j)
          with (nn i * nn j * (Wi X t 3 i * Wi X t 3 j * / Sij X i j ^ 3) * Mu2 X i * Mu2 X j * J0 X t AD BD i j) by (unfold Rdiv; ring).
        apply pair_pos; auto.
        - pose proof (Hpos i Hi) as Q1. pose proof (Hpos j Hj) as Q2. pose proof (W_pos 3 i Hi) as Q3. pose proof (W_pos 3 j Hj) as Q4. pose proof (S_pos 3 i j Hi Hj) as Q5.
          revert Q1 Q2 Q3 Q4 Q5. unfold nn. generalize (nth i x 0) (nth j x 0) (Wi X t 3 i) (Wi X t 3 j) (/ Sij X i j ^ 3). intros. repeat apply Rmult_lt_0_compat; auto.
        - intros A B. unfold J0. destruct (range i j Hi Hj (or_introl A) (or_introl B)). apply pair_dd_pos; auto. }
      apply (sum2_pos _ a a); auto; [intros i j Hi Hj; apply K; auto | apply K; auto].
    Qed.
    Lemma B_qq_nz : p_nquadpole p = 0%nat \/ B_qq X t nn <> 0.
    Proof.
      destruct (Nat.eq_dec (p_nquadpole p) 0) as [E | E]; [left; auto | right]. destruct (some_qu E) as (a & Ha & Ma).
      unfold B_qq. pose proof PI_RGT_0 as Pp. apply Rmult_integral_contrapositive_currified; [nra | ]. apply Rgt_not_eq.
      assert (K : forall i j, (i < length (p_m p))%nat -> (j < length (p_m p))%nat ->
        let y := nn i * nn j * (Wi X t 5 i * Wi X t 5 j / Sg X (Nat.min i j) ^ 7 * Qu2 X i * Qu2 X j) * J0 X t AQ BQ i j in
        0 <= y /\ (Qu2 X i <> 0 -> Qu2 X j <> 0 -> 0 < y)).
      { intros i j Hi Hj. cbv zeta.
        replace (nn i * nn j * (Wi X t 5 i * Wi X t 5 j / Sg X (Nat.min i j) ^ 7 * Qu2 X i * Qu2 X j) * J0 X t AQ BQ i j)
          with (nn i * nn j * (Wi X t 5 i * Wi X t 5 j * / Sg X (Nat.min i j) ^ 7) * Qu2 X i * Qu2 X j * J0 X t AQ BQ i j) by (unfold Rdiv; ring).
        apply pair_pos; auto.
        - pose proof (Hpos i Hi) as Q1. pose proof (Hpos j Hj) as Q2. pose proof (W_pos 5 i Hi) as Q3. pose proof (W_pos 5 j Hj) as Q4.
          assert (Q5 : 0 < / Sg X (Nat.min i j) ^ 7). { apply Rinv_0_lt_compat, pow_lt. apply (Sg_pos p Hph). clear - Hi Hj. lia. }
          revert Q1 Q2 Q3 Q4 Q5. unfold nn. generalize (nth i x 0) (nth j x 0) (Wi X t 5 i) (Wi X t 5 j) (/ Sg X (Nat.min i j) ^ 7). intros. repeat apply Rmult_lt_0_compat; auto.
        - intros A B. unfold J0. destruct (range i j Hi Hj (or_intror A) (or_intror B)). apply pair_qq_pos; auto. }
      apply (sum2_pos _ a a); auto; [intros i j Hi Hj; apply K; auto | apply K; auto].
    Qed.
    Lemma B_dq_nz kd kq : p_ndipole p = 0%nat \/ p_nquadpole p = 0%nat \/ B_dq X t nn kd kq <> 0.
    Proof.
      destruct (Nat.eq_dec (p_ndipole p) 0) as [E | E]; [left; auto | right]. destruct (some_mu E) as (a & Ha & Ma).
      destruct (Nat.eq_dec (p_nquadpole p) 0) as [E2 | E2]; [left; auto | right]. destruct (some_qu E2) as (b & Hb & Mb).
      unfold B_dq. pose proof PI_RGT_0 as Pp. apply Rmult_integral_contrapositive_currified; [nra | ]. apply Rgt_not_eq.
      assert (K : forall i j, (i < length (p_m p))%nat -> (j < length (p_m p))%nat ->
        let y := nn i * nn j * (Wi X t kd i * Wi X t kq j / Sij X i j ^ 5 * Mu2 X i * Qu2 X j) * J0 X t ADQ BDQ i j in
        0 <= y /\ (Mu2 X i <> 0 -> Qu2 X j <> 0 -> 0 < y)).
      { intros i j Hi Hj. cbv zeta.
        replace (nn i * nn j * (Wi X t kd i * Wi X t kq j / Sij X i j ^ 5 * Mu2 X i * Qu2 X j) * J0 X t ADQ BDQ i j)
          with (nn i * nn j * (Wi X t kd i * Wi X t kq j * / Sij X i j ^ 5) * Mu2 X i * Qu2 X j * J0 X t ADQ BDQ i j) by (unfold Rdiv; ring).
        apply pair_pos; auto.
        - pose proof (Hpos i Hi) as Q1. pose proof (Hpos j Hj) as Q2. pose proof (W_pos kd i Hi) as Q3. pose proof (W_pos kq j Hj) as Q4. pose proof (S_pos 5 i j Hi Hj) as Q5.
          revert Q1 Q2 Q3 Q4 Q5. unfold nn. generalize (nth i x 0) (nth j x 0) (Wi X t kd i) (Wi X t kq j) (/ Sij X i j ^ 5). intros. repeat apply Rmult_lt_0_compat; auto.
        - intros A B. unfold J0. destruct (range i j Hi Hj (or_introl A) (or_intror B)). apply pair_dq_pos; auto. }
      apply (sum2_pos _ a b); auto; [intros i j Hi Hj; apply K; auto | apply K; auto].
    Qed.

    Theorem C62_vapour_warm lu2 lu3 o : (p_nassoc p <= 1)%nat ->
      (forall a, p_assoc_comp p = [a] -> assoc_phys p /\ 0 < Na X a /\ (0 < Nb X a -> Na X a + Nb X a <= 2 ^ 26)) ->
      exists V0 B, close p t x <= V0 /\ second_virial lu3 p o t x = Some (Fin B) /\
      (forall v, V0 < v -> exists P, reduced_pressure p t x lu2 o v P) /\
      (forall va vb Pa Pb, V0 < va < vb -> reduced_pressure p t x lu2 o va Pa -> reduced_pressure p t x lu2 o vb Pb -> Pb < Pa) /\
      forall eps, 0 < eps -> exists P0, 0 < P0 /\ forall P, 0 < P < P0 ->
        exists v, V0 < v /\ reduced_pressure p t x lu2 o v P /\ Rabs (v - (1 / P + B)) < eps /\
          forall v', V0 < v' -> reduced_pressure p t x lu2 o v' P -> v' = v.
    Proof. intros H1 H2. apply C62_vapour; auto; [apply B_dd_nz | apply B_qq_nz | apply B_dq_nz]. Qed.
  End Warm.
End Vapour.

(** dimethyl ether, carbon dioxide and water at 350 K: dipoles, quadrupoles and hydrogen bonds *)
Example C62_case lu2 lu3 : exists V0 B, close sample 350 [0.25; 0.25; 0.5] <= V0 /\
  second_virial lu3 sample default_options 350 [0.25; 0.25; 0.5] = Some (Fin B) /\
  (forall v, V0 < v -> exists P, reduced_pressure sample 350 [0.25; 0.25; 0.5] lu2 default_options v P) /\
  (forall va vb Pa Pb, V0 < va < vb -> reduced_pressure sample 350 [0.25; 0.25; 0.5] lu2 default_options va Pa ->
     reduced_pressure sample 350 [0.25; 0.25; 0.5] lu2 default_options vb Pb -> Pb < Pa) /\
  forall eps, 0 < eps -> exists P0, 0 < P0 /\ forall P, 0 < P < P0 ->
    exists v, V0 < v /\ reduced_pressure sample 350 [0.25; 0.25; 0.5] lu2 default_options v P /\ Rabs (v - (1 / P + B)) < eps /\
      forall v', V0 < v' -> reduced_pressure sample 350 [0.25; 0.25; 0.5] lu2 default_options v' P -> v' = v.
Proof.
  destruct C17_case as (_ & _ & E).
  apply (C62_vapour_warm _ _ _ sample_ok sample_phys).
  - lra.
  - reflexivity.
  - intros i Hi. cbn in Hi. destruct i as [ | [ | [ | i]]]; cbn; try lra; lia.
  - cbn. lra.
  - intros i Hi. cbn in Hi. destruct i as [ | [ | [ | i]]]; cbn; try lra; lia.
  - intros i Hi. apply sample_warm. exact Hi.
  - rewrite (w_na _ (wfp_from_records _ _ _ sample_ok)), E. cbn. lia.
  - intros a Ha. rewrite E in Ha. injection Ha as <-. exact sample_assoc.
Qed.

Print Assumptions C62_vapour.
Print Assumptions C62_vapour_warm.
