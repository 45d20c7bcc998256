(** C57: vapour-liquid equilibrium of a pure fluid.  If a homogeneous state is unstable - its Helmholtz energy lies above
    that of two coexisting volumes, or the pressure rises with the volume somewhere - then there are two volumes with
    equal pressure and equal chemical potential, one on each side of the unstable state, and no volume has a lower
    Gibbs energy at that pressure: the phase equilibrium searched for exists. *)
From Coq Require Import ZArith QArith Reals Lra Lia String List Bool Psatz.
From Coquelicot Require Import Coquelicot.
From Interval Require Import Tactic.
From Verif Require Import Num RNum RSum Tables M_Params F_Params M_Eos Spec F_Spec F_SpecPolar
  F_SpecAssoc F_Contrib F_Cross F_Total Samples F_Limit P_Basic P_Limit P_Params P_Select XNum DNum F_Transfer F_Transfer2 F_Transfer3 F_Level P_Dual P_Dual2 P_Close P_Npt.
Import ListNotations.
Local Open Scope R_scope.
Set Bullet Behavior "Strict Subproofs".
Notation length := List.length.

Section Tangent.
  Variables (f f' : R -> R) (c N : R).
  Hypothesis Hc : 0 < c.
  Hypothesis HN : 0 < N.
  Hypothesis Div : diverges c f.
  Hypothesis D : forall v, c < v -> is_derive f v (f' v).
  Hypothesis Van : vanishes f.
  Let G := gibbs f N.
  Lemma G_shift P Q v : G P v = G Q v + (P - Q) * v. Proof. unfold G, gibbs. ring. Qed.
  Lemma coercive P K : 0 < P -> exists b, c < b /\ forall v, b <= v -> K < G P v.
  Proof.
    intros HP. destruct (Van 1 Rlt_0_1) as (V0 & HV). set (k := 2 * N / P). assert (Hk : 0 < k) by (apply Rdiv_lt_0_compat; lra).
    set (V1 := 2 * (K + 1 + N * ln k - N) / P).
    set (b := Rmax V0 (Rmax V1 c) + 1). pose proof (Rmax_l V0 (Rmax V1 c)). pose proof (Rmax_r V0 (Rmax V1 c)). pose proof (Rmax_l V1 c). pose proof (Rmax_r V1 c).
    exists b. split; [unfold b; lra | ]. intros v Hv. unfold b in Hv. assert (Hv0 : 0 < v) by lra. specialize (HV v ltac:(lra)). apply Rabs_def2 in HV.
    assert (L : ln v <= v / k + ln k - 1).
    { replace v with (v / k * k) at 1 by (field; lra). rewrite ln_mult; [ | apply Rdiv_lt_0_compat; lra | lra].
      pose proof (exp_ineq1_le (ln (v / k))) as E. rewrite exp_ln in E by (apply Rdiv_lt_0_compat; lra). lra. }
    assert (L2 : N * ln v <= N * (v / k + ln k - 1)) by (apply Rmult_le_compat_l; lra).
    assert (L3 : N * (v / k) = P * v / 2) by (unfold k; field; lra).
    assert (L4 : P * V1 = 2 * (K + 1 + N * ln k - N)) by (unfold V1; field; lra).
    assert (L5 : P * V1 < P * v) by (apply Rmult_lt_compat_l; lra). unfold G, gibbs. lra.
  Qed.
  Lemma min_low P v0 : 0 < P -> c < v0 -> exists m, c < m <= v0 /\ forall v, c < v <= v0 -> G P m <= G P v.
  Proof.
    intros HP H0. destruct (gibbs_left f c N P Hc HN HP Div v0 H0) as (a & Ha & La).
    destruct (min_between f f' c N P Hc a v0 ltac:(lra) ltac:(lra) ltac:(intros; apply D; lra)) as (m & Hm & Mn).
    exists m. split; [lra | ]. intros v Hv. destruct (Rle_lt_dec v a) as [H3 | H3]; [ | apply Mn; lra].
    specialize (La v ltac:(lra)). specialize (Mn v0 ltac:(lra)). unfold G. lra.
  Qed.
  Lemma min_high P v0 : 0 < P -> c < v0 -> exists m, v0 <= m /\ forall v, v0 <= v -> G P m <= G P v.
  Proof.
    intros HP H0. destruct (coercive P (G P v0) HP) as (b & Hb & Lb). set (b1 := Rmax b v0). pose proof (Rmax_l b v0). pose proof (Rmax_r b v0). fold b1 in H, H1.
    destruct (min_between f f' c N P Hc v0 b1 ltac:(lra) ltac:(lra) ltac:(intros; apply D; lra)) as (m & Hm & Mn).
    exists m. split; [lra | ]. intros v Hv. destruct (Rle_lt_dec b v) as [H3 | H3]; [ | apply Mn; lra].
    specialize (Lb v H3). specialize (Mn v0 ltac:(lra)). unfold G in *. lra.
  Qed.

  (** an unstable volume: at every pressure some other volume has a lower Gibbs energy *)
  Definition unstable (v0 : R) : Prop := forall P, 0 < P -> exists v, c < v /\ gibbs f N P v < gibbs f N P v0.

  Lemma double_tangent v0 : c < v0 -> unstable v0 ->
    exists P v1 v2, 0 < P /\ c < v1 < v0 /\ v0 < v2 /\ gibbs f N P v1 = gibbs f N P v2 /\ forall v, c < v -> gibbs f N P v1 <= gibbs f N P v.
  Proof.
    intros H0 U.
    set (S P := 0 < P /\ exists v2, v0 <= v2 /\ forall v, c < v <= v0 -> G P v2 < G P v).
    (* nonempty *)
    assert (Ne : exists P, S P).
    { destruct (min_low 1 v0 Rlt_0_1 H0) as (m & Hm & Mn). set (L := G 1 m - v0). destruct (Van 1 Rlt_0_1) as (V0 & HV).
      set (x := (2 - L) / N). set (v2 := Rmax (exp (x + 1)) (Rmax (V0 + 1) v0)).
      pose proof (Rmax_l (exp (x + 1)) (Rmax (V0 + 1) v0)) as M1. pose proof (Rmax_r (exp (x + 1)) (Rmax (V0 + 1) v0)) as M2. pose proof (Rmax_l (V0 + 1) v0). pose proof (Rmax_r (V0 + 1) v0). fold v2 in M1, M2.
      assert (Pv : 0 < v2) by lra. exists (/ v2). split; [apply Rinv_0_lt_compat; auto | ]. exists v2. split; [lra | ]. intros v Hv.
      specialize (HV v2 ltac:(lra)). apply Rabs_def2 in HV.
      assert (Lx : x + 1 <= ln v2). { rewrite <- (ln_exp (x + 1)). destruct M1 as [M1 | M1]; [left; apply ln_increasing; [apply exp_pos | auto] | rewrite M1; lra]. }
      assert (Nx : N * (x + 1) <= N * ln v2) by (apply Rmult_le_compat_l; lra). assert (Ex : N * x = 2 - L) by (unfold x; field; lra).
      specialize (Mn v Hv). assert (Lv : L <= G 0 v) by (unfold L; rewrite (G_shift 0 1 v); lra).
      assert (Iv : 0 < / v2) by (apply Rinv_0_lt_compat; auto).
      rewrite (G_shift (/ v2) 0 v). assert (0 < (/ v2 - 0) * v) by (apply Rmult_lt_0_compat; lra).
      unfold G at 1, gibbs. rewrite Rinv_l by lra. lra. }
    (* bounded *)
    assert (Bd : bound S).
    { destruct (min_high 1 v0 Rlt_0_1 H0) as (m & Hm & Mn). set (vm := (c + v0) / 2). set (q := (G 1 vm - G 1 m) / (v0 - vm)).
      exists (1 + Rmax 0 q). intros P (HP & v2 & Hv2 & H2). destruct (Rle_lt_dec P 1) as [L1 | L1]; [pose proof (Rmax_l 0 q); lra | ].
      specialize (H2 vm ltac:(unfold vm; lra)). rewrite (G_shift P 1 v2), (G_shift P 1 vm) in H2. specialize (Mn v2 Hv2).
      assert ((P - 1) * v0 <= (P - 1) * v2) by (apply Rmult_le_compat_l; lra).
      assert (E : (P - 1) * (v0 - vm) <= q * (v0 - vm)). { unfold q. unfold Rdiv. rewrite Rmult_assoc, Rinv_l by (unfold vm; lra). lra. }
      apply Rmult_le_reg_r in E; [ | unfold vm; lra]. pose proof (Rmax_r 0 q). lra. }
    destruct (completeness S Bd Ne) as (Ps & Ub & Least).
    assert (HPs : 0 < Ps) by (destruct Ne as (P & HP); pose proof (Ub P HP); destruct HP; lra).
    destruct (min_low Ps v0 HPs H0) as (m1 & Hm1 & Mn1). destruct (min_high Ps v0 HPs H0) as (m2 & Hm2 & Mn2).
    destruct (Rtotal_order (G Ps m2) (G Ps m1)) as [Lt | [Eq | Gt]].
    - exfalso. set (d := (G Ps m1 - G Ps m2) / (2 * m2)). assert (Hd : 0 < d) by (apply Rdiv_lt_0_compat; lra).
      assert (E : d * m2 = (G Ps m1 - G Ps m2) / 2) by (unfold d; field; lra).
      assert (SS : S (Ps + d)).
      { split; [lra | ]. exists m2. split; auto. intros v Hv. rewrite (G_shift (Ps + d) Ps m2), (G_shift (Ps + d) Ps v). specialize (Mn1 v Hv).
        replace (Ps + d - Ps) with d by ring. assert (0 < d * v) by (apply Rmult_lt_0_compat; lra). lra. }
      apply Ub in SS. lra.
    - exists Ps, m1, m2. assert (All : forall v, c < v -> G Ps m1 <= G Ps v).
      { intros v Hv. destruct (Rle_lt_dec v v0); [apply Mn1; lra | rewrite <- Eq; apply Mn2; lra]. }
      destruct (U Ps HPs) as (w & Hw & Uw). change (G Ps w < G Ps v0) in Uw. pose proof (All w Hw) as Aw.
      split; auto. split; [ | split; [ | split; [symmetry; exact Eq | exact All]]].
      + destruct (Rle_lt_or_eq_dec m1 v0 (proj2 Hm1)) as [ | E]; [lra | rewrite E in Aw; lra].
      + destruct (Rle_lt_or_eq_dec v0 m2 Hm2) as [ | E]; [lra | ]. rewrite <- Eq, <- E in Aw. lra.
    - exfalso. destruct (coercive (Ps / 2) (G Ps m1) ltac:(lra)) as (B & HB & LB). set (d := Rmin (Ps / 2) ((G Ps m2 - G Ps m1) / B)).
      assert (Hd : 0 < d) by (apply Rmin_pos; [lra | apply Rdiv_lt_0_compat; lra]). pose proof (Rmin_l (Ps / 2) ((G Ps m2 - G Ps m1) / B)) as L1. pose proof (Rmin_r (Ps / 2) ((G Ps m2 - G Ps m1) / B)) as L2. fold d in L1, L2.
      assert (exists P, S P /\ Ps - d < P) as (P & (HP & v2 & Hv2 & H2) & LP).
      { apply Classical_Prop.NNPP. intros Hn. assert (Ps <= Ps - d); [ | lra]. apply Least. intros P HP. destruct (Rle_lt_dec P (Ps - d)); auto. exfalso. apply Hn. exists P. split; auto. }
      assert (PPs : P <= Ps) by (apply Ub; split; eauto).
      specialize (H2 m1 Hm1). rewrite (G_shift P Ps m1) in H2.
      assert (0 <= (Ps - P) * m1) by (apply Rmult_le_pos; lra).
      assert (Lv : v2 < B).
      { destruct (Rle_lt_dec B v2) as [K | ]; auto. specialize (LB v2 K). rewrite (G_shift (Ps / 2) P v2) in LB.
        assert (0 <= (P - Ps / 2) * v2) by (apply Rmult_le_pos; lra). lra. }
      specialize (Mn2 v2 Hv2). rewrite (G_shift Ps P v2) in Mn2.
      assert ((Ps - P) * v2 <= d * B) by (apply Rmult_le_compat; lra).
      assert (d * B <= G Ps m2 - G Ps m1). { apply Rle_trans with ((G Ps m2 - G Ps m1) / B * B); [apply Rmult_le_compat_r; lra | right; field; lra]. }
      lra.
  Qed.

  (** an energy above that of two coexisting volumes makes a volume unstable *)
  Lemma above_chord va vb l : c < va -> c < vb -> 0 <= l <= 1 -> let v0 := l * va + (1 - l) * vb in
    l * (f va - N * ln va) + (1 - l) * (f vb - N * ln vb) < f v0 - N * ln v0 -> unstable v0.
  Proof.
    intros Ha Hb Hl v0 H P HP. destruct (Rlt_le_dec (G P va) (G P v0)) as [H1 | H1]; [exists va; auto | ]. destruct (Rlt_le_dec (G P vb) (G P v0)) as [H2 | H2]; [exists vb; auto | ].
    exfalso. assert (A1 : l * G P v0 <= l * G P va) by (apply Rmult_le_compat_l; lra). assert (A2 : (1 - l) * G P v0 <= (1 - l) * G P vb) by (apply Rmult_le_compat_l; lra).
    assert (E : G P v0 = f v0 - N * ln v0 + P * (l * va + (1 - l) * vb)) by reflexivity. change (G P va) with (f va - N * ln va + P * va) in A1. change (G P vb) with (f vb - N * ln vb + P * vb) in A2.
    set (g0 := f v0 - N * ln v0) in *. set (ga := f va - N * ln va) in *. set (gb := f vb - N * ln vb) in *. clearbody g0 ga gb. rewrite E in A1, A2. nra.
  Qed.
  (** a pressure that rises with the volume makes one of the two volumes unstable *)
  Lemma rising va vb : c < va -> va < vb -> N / va - f' va < N / vb - f' vb -> 0 < N / vb - f' vb -> exists v0, c < v0 /\ unstable v0.
  Proof.
    intros Ha Hb Hr Hpb.
    destruct (Classical_Prop.classic (exists P, 0 < P /\ forall v, c < v -> G P va <= G P v)) as [(P1 & HP1 & M1) | Hn].
    - destruct (Classical_Prop.classic (exists P, 0 < P /\ forall v, c < v -> G P vb <= G P v)) as [(P2 & HP2 & M2) | Hn].
      + exfalso. assert (E1 : N / va - f' va = P1). { apply (min_flat f f' c N P1 Hc va ((c + va) / 2) vb); [lra | lra | apply D; lra | intros; apply M1; lra]. }
        assert (E2 : N / vb - f' vb = P2). { apply (min_flat f f' c N P2 Hc vb va (vb + 1)); [lra | lra | apply D; lra | intros; apply M2; lra]. }
        pose proof (M1 vb ltac:(lra)) as Q1. pose proof (M2 va ltac:(lra)) as Q2. rewrite (G_shift P2 P1 vb), (G_shift P2 P1 va) in Q2.
        assert (0 < (P2 - P1) * (vb - va)) by (apply Rmult_lt_0_compat; lra). lra.
      + exists vb. split; [lra | ]. intros P HP. apply Classical_Prop.NNPP. intros Hm. apply Hn. exists P. split; auto. intros v Hv. destruct (Rle_lt_dec (G P vb) (G P v)); auto. exfalso. apply Hm. exists v. auto.
    - exists va. split; [lra | ]. intros P HP. apply Classical_Prop.NNPP. intros Hm. apply Hn. exists P. split; auto. intros v Hv. destruct (Rle_lt_dec (G P va) (G P v)); auto. exfalso. apply Hm. exists v. auto.
  Qed.
End Tangent.

(* ------------------------------------------------------------------ pure components *)
Section Pure.
  Variables (prs : list (pure_record RNum)) (bin : list (list R)) (p : params RNum).
  Hypothesis Hp : from_records prs bin = Some p.
  Hypothesis Hph : phys p.
  Hypothesis H1 : length (p_m p) = 1%nat.
  Variables (t n : R).
  Hypothesis Ht : 0 < t.
  Hypothesis Hn : 0 < n.
  Notation cst := (fun r : R => (Fin r, Fin 0)).      (* Dual64 constant *)
  Notation var := (fun r : R => (Fin r, Fin 1)).      (* Dual64 variable *)
  Notation D1 := (lK (dual 1)).
  Notation eosD o := (with_options (plift (emb (TRn 1)) p) (lift_options (emb (TRn 1)) o)).
  Let c := close p t [n].
  (** chemical potential in units of kB T, up to a function of temperature: ideal gas plus the eps part of the residual
      Helmholtz energy with a seeded amount *)
  Definition reduced_potential lu2 o v mu : Prop :=
    exists a r, residual lu2 (eosD o) (@state_new D1 (cst t) (cst v) [var n]) = Some (Fin a, Fin r) /\ ln (n / v) + r = mu.

  Lemma len1 : length [n] = length (p_m p). Proof. rewrite H1. reflexivity. Qed.
  Lemma nn1 i : (i < length (p_m p))%nat -> 0 <= nth i [n] 0. Proof. rewrite H1. intros Hi. destruct i; [cbn; lra | lia]. Qed.
  Lemma ne1 : exists i, (i < length (p_m p))%nat /\ 0 < nth i [n] 0. Proof. exists 0%nat. rewrite H1. cbn. split; [lia | lra]. Qed.
  Lemma total1 : (Sum i < length (p_m p), nth i [n] 0) = n. Proof. rewrite H1. cbn. ring. Qed.
  Lemma c_pos : 0 < c. Proof. exact (close_pos p Hph t [n] Ht nn1 ne1). Qed.

  (** for a pure component the Gibbs energy per molecule is the chemical potential *)
  Lemma potential_gibbs lu lu2 o f v P : (forall V, residual lu (with_options p o) (@state_new RNum t V [n]) = Some (f V)) ->
    c < v -> regular_point p t v [n] o -> is_derive f v (n / v - P) ->
    reduced_potential lu2 o v (gibbs f n P v / n - 1 + ln n).
  Proof.
    intros Hf Hv Rg Df. pose proof c_pos as Hc. assert (Hv0 : 0 < v) by lra.
    destruct (C08_chemical_potential prs bin p Hp Hph t v [n] (PSv p Hph t [n] Ht len1 nn1 ne1 v Hv) lu lu2 o 0 Rg ltac:(cbn; lia)) as (A & r & E1 & E2 & E3).
    exists (A n), r. split; [exact E2 | ].
    assert (EA : forall x, 0 < x -> A x = x / n * f (v * n / x)).
    { intros x Hx. apply Some_inj. rewrite <- E1. pose proof (C02_residual_extensive lu p o t (v * n / x) [n] (x / n) ltac:(apply Rdiv_lt_0_compat; auto)) as C2.
      rewrite Hf in C2. cbn [map option_map] in C2. refine (eq_trans _ C2). unfold set_at. cbn [firstn skipn app]. f_equal. f_equal; [field; lra | ]. f_equal. field. lra. }
    assert (Dr : is_derive A n (f v / n - v / n * (n / v - P))).
    { apply (is_derive_ext_loc (fun x => x / n * f (v * n / x))).
      - exists (mkposreal n Hn). intros y Hy. symmetry. apply EA. change (Rabs (y - n) < n) in Hy. apply Rabs_def2 in Hy. lra.
      - assert (Df2 : is_derive f (v * n / n) (n / v - P)) by (replace (v * n / n) with v by (field; lra); exact Df).
        auto_derive; [split; [exists (n / v - P); exact Df2 | split; [lra | auto]] | ].
        match goal with |- context [Derive ?g (v * n * / n)] => replace (Derive g (v * n * / n)) with (n / v - P) by (symmetry; apply is_derive_unique; exact Df2) end.
        replace (v * n * / n) with v by (field; lra). field. lra. }
    assert (Er : r = f v / n - v / n * (n / v - P)) by (rewrite <- (is_derive_unique A n r E3); apply is_derive_unique; exact Dr).
    rewrite Er. unfold gibbs, Rdiv. rewrite ln_mult by (auto; apply Rinv_0_lt_compat; auto). rewrite ln_Rinv by auto. field. lra.
  Qed.

  (** coexistence at pressure P of the volumes v1 and v2 *)
  Definition coexist lu2 o P v1 v2 : Prop :=
    reduced_pressure p t [n] lu2 o v1 P /\ reduced_pressure p t [n] lu2 o v2 P /\
    exists mu, reduced_potential lu2 o v1 mu /\ reduced_potential lu2 o v2 mu.

  Hypothesis Hd : p_ndipole p = 0%nat.
  Hypothesis Hq : p_nquadpole p = 0%nat.
  Hypothesis Hass : p_nassoc p = 0%nat.

  Lemma all_regular o v : regular_point p t v [n] o.
  Proof.
    pose proof (wfp_from_records _ _ _ Hp) as W. split; [congruence | ]. split; [congruence | ]. split; [congruence | ]. split; [lia | ].
    intros a Ha. pose proof Hass as E. rewrite (w_na _ W), Ha in E. discriminate.
  Qed.
  Lemma setting lu lu2 o : exists f, (forall V, residual lu (with_options p o) (@state_new RNum t V [n]) = Some (f V)) /\
    diverges c f /\ vanishes f /\ (forall v, c < v -> is_derive f v (Derive f v)) /\
    forall v, c < v -> exists r, residual lu2 (eosD o) (@state_new D1 (cst t) (var v) (map cst [n])) = Some (Fin (f v), Fin r) /\ r = Derive f v.
  Proof.
    pose proof (wfp_from_records _ _ _ Hp) as W.
    assert (NoA : forall a, p_assoc_comp p = [a] -> False) by (intros a Ha; pose proof Hass as E; rewrite (w_na _ W), Ha in E; discriminate).
    destruct (C55_residual p W Hph t [n] Ht len1 nn1 ne1 lu o (or_introl Hd) (or_introl Hq) (or_introl Hd) ltac:(lia) ltac:(intros a Ha; destruct (NoA a Ha))) as (f & Hf & Dv).
    exists f. split; [exact Hf | ]. split; [exact Dv | ].
    assert (Sl : forall v, c < v -> exists r, residual lu2 (eosD o) (@state_new D1 (cst t) (var v) (map cst [n])) = Some (Fin (f v), Fin r) /\ is_derive f v r).
    { intros v Hv. exact (slope prs bin p Hp Hph t [n] Ht len1 nn1 ne1 lu lu2 o f v Hf Hv (all_regular o v)). }
    split; [ | split].
    - assert (E : forall v, f v = a_hs p (@state_new RNum t v [n]) + a_hc p (@state_new RNum t v [n]) + a_disp p (@state_new RNum t v [n])).
      { intros v. specialize (Hf v). rewrite residual_total in Hf. unfold assoc_term in Hf. rewrite Hass in Hf. apply Some_inj in Hf. rewrite <- Hf.
        rewrite a_dipole_none, a_quadrupole_none, a_dq_none_d by auto. rewrite !Rplus_0_r. reflexivity. }
      intros eps He.
      assert (Vs : vanishes (fun v => a_hs p (@state_new RNum t v [n]) + a_hc p (@state_new RNum t v [n]) + a_disp p (@state_new RNum t v [n]))).
      { apply (vanishes_plus (fun v => _ + _) (fun v => a_disp p (@state_new RNum t v [n]))); [ | apply C06_dispersion; auto using len1, nn1, ne1].
        apply (vanishes_plus (fun v => a_hs p (@state_new RNum t v [n])) (fun v => a_hc p (@state_new RNum t v [n]))); [apply C06_hard_sphere | apply C06_hard_chain]; auto using len1, nn1, ne1. }
      destruct (Vs eps He) as (V0 & HV). exists V0. intros v Hv. rewrite E. apply HV. exact Hv.
    - intros v Hv. destruct (Sl v Hv) as (r & _ & Dr). apply Derive_correct. exists r. exact Dr.
    - intros v Hv. destruct (Sl v Hv) as (r & E & Dr). exists r. split; [exact E | ]. symmetry. apply is_derive_unique. exact Dr.
  Qed.

  (** every unstable volume lies between two coexisting volumes *)
  Lemma coexistence lu lu2 o f v0 : (forall V, residual lu (with_options p o) (@state_new RNum t V [n]) = Some (f V)) ->
    c < v0 -> unstable f c n v0 ->
    exists P v1 v2, 0 < P /\ c < v1 < v0 /\ v0 < v2 /\ coexist lu2 o P v1 v2 /\ forall v, c < v -> gibbs f n P v1 <= gibbs f n P v.
  Proof.
    intros Hf0 Hv0 U. destruct (setting lu lu2 o) as (f1 & Hf & Dv & Van & Dr & Sl).
    assert (E : forall V, f1 V = f V) by (intros V; apply Some_inj; rewrite <- Hf, <- Hf0; reflexivity).
    assert (U1 : unstable f1 c n v0) by (intros P HP; destruct (U P HP) as (v & Hv & L); exists v; split; auto; unfold gibbs in *; rewrite !E; exact L).
    destruct (double_tangent f1 (Derive f1) c n c_pos Hn Dv Dr Van v0 Hv0 U1) as (P & v1 & v2 & HP & Hv1 & Hv2 & EG & Mn).
    exists P, v1, v2. split; auto. split; auto. split; auto. pose proof c_pos as Hc.
    assert (Mn2 : forall v, c < v -> gibbs f1 n P v2 <= gibbs f1 n P v) by (intros v Hv; rewrite <- EG; auto).
    assert (F1 : n / v1 - Derive f1 v1 = P).
    { apply (min_flat f1 (Derive f1) c n P Hc v1 ((c + v1) / 2) (v1 + 1)); [lra | lra | apply Dr; lra | intros; apply Mn; lra]. }
    assert (F2 : n / v2 - Derive f1 v2 = P).
    { apply (min_flat f1 (Derive f1) c n P Hc v2 ((c + v2) / 2) (v2 + 1)); [lra | lra | apply Dr; lra | intros; apply Mn2; lra]. }
    assert (Pr : forall v, c < v -> n / v - Derive f1 v = P -> reduced_pressure p t [n] lu2 o v P).
    { intros v Hv F. destruct (Sl v Hv) as (r & Er & ->). exists (f1 v), (Derive f1 v). split; [exact Er | ]. rewrite total1. exact F. }
    split.
    - split; [apply Pr; auto; lra | ]. split; [apply Pr; auto; lra | ]. exists (gibbs f1 n P v1 / n - 1 + ln n). split; [ | rewrite EG].
      + apply (potential_gibbs lu lu2 o f1 v1 P Hf); [lra | apply all_regular | ]. replace (n / v1 - P) with (Derive f1 v1) by lra. apply Dr; lra.
      + apply (potential_gibbs lu lu2 o f1 v2 P Hf); [lra | apply all_regular | ]. replace (n / v2 - P) with (Derive f1 v2) by lra. apply Dr; lra.
    - intros v Hv. specialize (Mn v Hv). unfold gibbs in *. rewrite !E in Mn. exact Mn.
  Qed.

  (** A volume whose Helmholtz energy lies above that of a coexistence of two other volumes. *)
  Theorem C57_unstable lu lu2 o f va vb l : (forall V, residual lu (with_options p o) (@state_new RNum t V [n]) = Some (f V)) ->
    c < va -> c < vb -> 0 <= l <= 1 -> let v0 := l * va + (1 - l) * vb in
    l * (f va - n * ln va) + (1 - l) * (f vb - n * ln vb) < f v0 - n * ln v0 ->
    exists P v1 v2, 0 < P /\ c < v1 < v0 /\ v0 < v2 /\ coexist lu2 o P v1 v2 /\
      forall v, c < v -> f v1 - n * ln v1 + P * v1 <= f v - n * ln v + P * v.
  Proof.
    intros Hf Ha Hb Hl v0 H. apply (coexistence lu lu2 o f v0 Hf).
    - unfold v0. pose proof c_pos. assert (0 <= l * (va - c)) by (apply Rmult_le_pos; lra). assert (0 <= (1 - l) * (vb - c)) by (apply Rmult_le_pos; lra).
      destruct (Rle_lt_or_eq_dec 0 l (proj1 Hl)) as [L | <-]; [assert (0 < l * (va - c)) by (apply Rmult_lt_0_compat; lra); lra | lra].
    - exact (above_chord f c n va vb l Ha Hb Hl H).
  Qed.
  (** A pressure that rises with the volume. *)
  Theorem C57_rising_pressure lu2 o va vb Pa Pb : c < va < vb ->
    reduced_pressure p t [n] lu2 o va Pa -> reduced_pressure p t [n] lu2 o vb Pb -> Pa < Pb -> 0 < Pb ->
    exists P v1 v2, 0 < P /\ c < v1 < v2 /\ coexist lu2 o P v1 v2.
  Proof.
    intros Hv (aa & ra & Ea & Fa) (ab & rb & Eb & Fb) HP HPb. destruct (setting (fun _ _ => None) lu2 o) as (f & Hf & Dv & Van & Dr & Sl).
    rewrite total1 in Fa, Fb. destruct (Sl va ltac:(lra)) as (r1 & X1 & ->). destruct (Sl vb ltac:(lra)) as (r2 & X2 & ->).
    rewrite Ea in X1. rewrite Eb in X2. apply Some_inj in X1. apply Some_inj in X2. assert (Fin ra = Fin (Derive f va)) as Y1 by congruence. assert (Fin rb = Fin (Derive f vb)) as Y2 by congruence.
    assert (ra = Derive f va) as -> by congruence. assert (rb = Derive f vb) as -> by congruence.
    destruct (rising f (Derive f) c n c_pos Dr va vb ltac:(lra) ltac:(lra) ltac:(lra) ltac:(lra)) as (v0 & Hv0 & U).
    destruct (coexistence _ lu2 o f v0 Hf Hv0 U) as (P & v1 & v2 & H2 & H3 & H4 & H5 & _). exists P, v1, v2. split; auto. split; [lra | auto].
  Qed.
End Pure.

(* ------------------------------------------------------------------ case *)
Definition but : params RNum := from_records_raw [pr_butane] (zeros 1).
Lemma but_ok : from_records [pr_butane] (zeros 1) = Some but. Proof. reflexivity. Qed.
Lemma but_phys : phys but.
Proof. intros i Hi. cbn in Hi. destruct i as [ | i]; cbn; try lra; lia. Qed.
Lemma but_recs : forall pr, In pr [pr_butane] -> physical_record (pr_model pr).
Proof. intros pr [<- | []]; unfold physical_record; cbn; lra. Qed.
Lemma but_none : p_ndipole but = 0%nat /\ p_nquadpole but = 0%nat /\ p_nassoc but = 0%nat.
Proof.
  destruct (C17_index_sets _ _ _ but_ok but_recs) as (A & B & C & E1 & E2 & E3). rewrite E1, E2, E3.
  rewrite (none_set _ _ _ A), (none_set _ _ _ B), (none_set _ _ _ C); auto; intros pr [<- | []]; cbn; lra.
Qed.
Lemma but_close : 60 < close but 250 [1] < 61.
Proof.
  unfold close, Di. change (length (p_m but)) with 1%nat. unfold rsum. cbn [seq fold_right map].
  change (M (mix_of but) 0) with (2.331586). change (Sg (mix_of but) 0) with (3.708601). change (Ep (mix_of but) 0) with (222.8774).
  cbn [nth]. split; interval.
Qed.
(** the textbook energy of one molecule of butane at 250 K *)
Definition but_energy (v : R) : R :=
  let X := mix_of but in let r := fun i => nth i [1] 0 / v in v * f_hs X 250 r + v * f_hc X 250 r + v * f_disp X 250 r.
Lemma but_eq lu o f v : (forall V, residual lu (with_options but o) (@state_new RNum 250 V [1]) = Some (f V)) -> 61 < v -> f v = but_energy v.
Proof.
  intros Hf Hv. pose proof but_close as Hc. destruct but_none as (E1 & E2 & E3).
  assert (PS : phys_state but 250 v [1]).
  { apply (PSv but but_phys 250 [1]); [lra | reflexivity | intros i Hi; cbn in Hi; destruct i; [cbn; lra | lia] | exists 0%nat; cbn; split; [lia | lra] | lra]. }
  specialize (Hf v). rewrite residual_total in Hf. unfold assoc_term in Hf. rewrite E3 in Hf. apply Some_inj in Hf. rewrite <- Hf.
  rewrite a_dipole_none, a_quadrupole_none, a_dq_none_d by auto. pose proof (wfp_from_records _ _ _ but_ok) as W.
  rewrite (hs_textbook but W but_phys 250 v [1] PS), (hc_textbook but W but_phys 250 v [1] PS), (disp_textbook but W 250 v [1] PS).
  unfold but_energy. rewrite !Rplus_0_r. reflexivity.
Qed.
Ltac but_num :=
  unfold but_energy, f_hs, f_hc, f_disp, power_series, C1, mixsum, Gij, Eta, Mbar, Rho, Zeta, Eij, Eij0, Sij, Di, lit, Rlit;
  change (N (mix_of but)) with 1%nat; unfold rsum; cbn [seq fold_right map];
  change (M (mix_of but) 0) with (2.331586); change (Sg (mix_of but) 0) with (3.708601); change (Ep (mix_of but) 0) with (222.8774);
  change (Kij (mix_of but) 0 0) with 0; cbn [nth A0 A1 A2 B0 B1 B2 Qnum Qden].
Lemma but_liquid : but_energy 150 < -5.
Proof. but_num. interval. Qed.
Lemma but_gas : but_energy 8650 < 0.
Proof. but_num. interval. Qed.
Lemma but_between : -1.3 < but_energy 1000.
Proof. but_num. interval. Qed.
(** butane at 250 K *)
Example C57_case : exists P v1 v2, 0 < P /\ close but 250 [1] < v1 < 1000 /\ 1000 < v2 /\ coexist but 250 1 (fun _ _ => None) default_options P v1 v2.
Proof.
  destruct but_none as (E1 & E2 & E3). assert (Ht : 0 < 250) by lra. assert (Hn : 0 < 1) by lra. pose proof but_close as Hc.
  destruct (setting _ _ _ but_ok but_phys eq_refl 250 1 Ht Hn E1 E2 E3 (fun _ _ => None) (fun _ _ => None) default_options) as (f & Hf & _).
  assert (V0 : 9 / 10 * 150 + (1 - 9 / 10) * 8650 = 1000) by lra.
  pose proof (C57_unstable _ _ _ but_ok but_phys eq_refl 250 1 Ht Hn E1 E2 E3 (fun _ _ => None) (fun _ _ => None) default_options f 150 8650 (9 / 10) Hf
    ltac:(lra) ltac:(lra) ltac:(lra)) as H. cbv zeta in H. rewrite V0 in H.
  rewrite !(but_eq _ _ f _ Hf) in H by lra.
  destruct H as (P & v1 & v2 & H1 & H2 & H3 & H4 & _).
  - pose proof but_liquid. pose proof but_gas. pose proof but_between. set (e1 := but_energy 150) in *. set (e2 := but_energy 8650) in *. set (e3 := but_energy 1000) in *. clearbody e1 e2 e3.
    assert (L1 : 5.01 <= ln 150) by interval. assert (L2 : 9.06 <= ln 8650) by interval. assert (L3 : ln 1000 <= 6.91) by interval. lra.
  - exists P, v1, v2. auto.
Qed.
Print Assumptions C57_unstable.
Print Assumptions C57_rising_pressure.
Print Assumptions C57_case.
