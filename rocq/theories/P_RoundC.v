(** C52: rounding of the hard-chain contribution. *)
From Coq Require Import ZArith QArith Reals Lra Lia List Bool.
From Flocq Require Import Core Relative.
From Verif Require Import Num RNum RSum Tables M_Params M_Eos Spec P_Basic BNum F_Round F_Round2 P_RoundD P_RoundH.
Import ListNotations.
Local Open Scope R_scope.
Set Bullet Behavior "Strict Subproofs".
Notation length := List.length.

Lemma rsum_abs {A} (l : list A) f : Rabs (rsum l f) <= rsum l (fun i => Rabs (f i)).
Proof. induction l as [ | b l IH]; cbn; [rewrite Rabs_R0; lra | ]. eapply Rle_trans; [apply Rabs_triang | ]. lra. Qed.
(** sums of terms of either sign *)
Lemma bsum_err (l : list R) a : Rabs (bsum l a - (a + rsum l (fun x => x))) <= ((1 + u) ^ length l - 1) * (Rabs a + rsum l Rabs).
Proof.
  pose proof u_pos as U0. revert a. induction l as [ | b l IH]; intros a.
  - cbn. replace (a - (a + 0)) with 0 by ring. rewrite Rabs_R0. lra.
  - change (bsum (b :: l) a) with (bsum l (rnd (a + b))). change (rsum (b :: l) (fun x => x)) with (b + rsum l (fun x => x)). change (rsum (b :: l) Rabs) with (Rabs b + rsum l Rabs).
    cbn [length pow]. specialize (IH (rnd (a + b))). destruct (rnd_err (a + b)) as (f & Hf & Ef). rewrite Ef in *. set (s := (a + b) * (1 + f)) in *.
    set (q := (1 + u) ^ length l) in *. assert (Q : 1 <= q) by (unfold q; apply pow_R1_Rle; lra). set (T := rsum l (fun x => x)) in *. set (A := rsum l Rabs) in *.
    assert (PA : 0 <= A) by (apply rsum_nonneg; intros; apply Rabs_pos).
    replace (bsum l s - (a + (b + T))) with (bsum l s - (s + T) + (a + b) * f) by (unfold s; ring). eapply Rle_trans; [apply Rabs_triang | ].
    assert (Hab : Rabs (a + b) <= Rabs a + Rabs b) by apply Rabs_triang. set (c := Rabs a + Rabs b) in *. pose proof (Rabs_pos (a + b)) as Pab.
    assert (Hs : Rabs s <= (1 + u) * c). { unfold s. rewrite Rabs_mult, Rmult_comm. apply Rmult_le_compat; try apply Rabs_pos; [ | exact Hab]. eapply Rle_trans; [apply Rabs_triang | ]. rewrite Rabs_R1. lra. }
    assert (H1 : (q - 1) * (Rabs s + A) <= (q - 1) * ((1 + u) * c + A)) by (apply Rmult_le_compat_l; lra).
    assert (H2 : Rabs ((a + b) * f) <= c * u) by (rewrite Rabs_mult; apply Rmult_le_compat; try apply Rabs_pos; lra).
    assert (H3 : 0 <= u * q * A) by (repeat apply Rmult_le_pos; lra). replace (Rabs a + (Rabs b + A)) with (c + A) by (unfold c; ring).
    replace (((1 + u) * q - 1) * (c + A)) with ((q - 1) * ((1 + u) * c + A) + c * u + u * q * A) by ring. lra.
Qed.
Lemma pow_1u k : INR k * u <= / 2 -> (1 + u) ^ k - 1 <= INR k * u * (1 + 2 * (INR k * u)).
Proof.
  intros H. pose proof u_pos as U0. pose proof (pos_INR k) as K0. assert (Hp : 0 <= INR k * u) by (apply Rmult_le_pos; lra).
  assert (A : (1 + u) ^ k <= / o ^ k).
  { rewrite <- pow_inv. apply pow_incr. split; [lra | ]. unfold o. pose proof u_small. apply (Rmult_le_reg_r (1 - u)); [lra | ]. rewrite Rinv_l by lra. nra. }
  pose proof (o_pow_lower k) as B. set (x := INR k * u) in *. assert (C : / o ^ k <= / (1 - x)) by (apply Rinv_le_contravar; lra).
  assert (D : / (1 - x) <= 1 + x * (1 + 2 * x)). { apply (Rmult_le_reg_r (1 - x)); [lra | ]. rewrite Rinv_l by lra. nra. } lra.
Qed.

(** contact value of the pair distribution function *)
Section Contact.
  Variable L : libm.
  Variable w : R. Hypothesis Hw : 0 < w <= / 10 ^ 9.
  Variables z2 z3 d : R.
  Hypotheses (P2 : 0 < z2) (P3 : 0 < z3 < 1) (Pd : 0 < d).
  Hypothesis Hu : u <= w * (1 - z3) / 24.
  Variables Z2 Z3 D : R.
  Hypotheses (A2 : acc (1 * w) Z2 z2) (A3 : acc (w * (1 - z3)) Z3 z3) (Ad : acc (0.25 * w) D d).
  Let U := u20 w Hw z3 P3 Hu.
  Let Rn := W_rnd w Hw U.
  Let Mr := W_mulr w Hw U.
  Let c := z2 * / (1 - z3) * / (1 - z3).
  Let g := / (1 - z3) + d * c * 1.5 + d * d * (c * c) * (1 - z3) * 0.5.
  Lemma lit15 : @nlit (BNum L) 1.5 = 1.5.
  Proof. cbn [nlit BNum]. replace (Rlit 1.5) with (IZR 3 * bpow radix2 (-1)) by (unfold Rlit; cbn; lra). rewrite rnd_id; [cbn; lra | ]. exact (f64_Z 3 (-1) ltac:(lia)). Qed.
  Lemma lit05 : @nlit (BNum L) 0.5 = 0.5.
  Proof. cbn [nlit BNum]. replace (Rlit 0.5) with (IZR 1 * bpow radix2 (-1)) by (unfold Rlit; cbn; lra). rewrite rnd_id; [cbn; lra | ]. exact (f64_Z 1 (-1) ltac:(lia)). Qed.
  Lemma g_acc : acc (9.1 * w) (@g_hs (BNum L) D Z2 Z3) g.
  Proof.
    unfold g_hs. pose proof (frac_acc L w Hw z3 P3 Hu Z3 A3) as F. set (f := @nopp (BNum L) _) in *. rewrite lit1 in *.
    assert (O : acc (1.06 * w) (@nsub (BNum L) Z3 1) (- (1 - z3))). { cbn [nsub BNum]. replace 1.06 with (1 + 0.06) by lra. apply Rn; [lra | ]. replace (Z3 - 1) with (- (1 - Z3)) by ring. apply acc_opp, (one_minus w z3 P3 Z3 A3). }
    rewrite lit15, lit05. set (y := @nsub (BNum L) Z3 1) in *. change (car (BNum L)) with R in *. clearbody f y. cbn [nmul nadd nsub npowi BNum bpowi].
    assert (Pi : 0 < / (1 - z3)) by (apply Rinv_0_lt_compat; lra). assert (Pc : 0 < c) by (unfold c; repeat apply Rmult_lt_0_compat; lra).
    assert (C : acc (3.4 * w) (rnd (rnd (Z2 * f) * f)) c). { unfold c. replace 3.4 with (2.2 + 1.13 + 0.07) by lra. apply Mr; [ | exact F | lra | lra]. replace 2.2 with (1 + 1.13 + 0.07) by lra. apply Mr; auto; lra. }
    set (C' := rnd (rnd (Z2 * f) * f)) in *. clearbody C'.
    assert (G1 : acc (3.79 * w) (rnd (rnd (D * C') * 1.5)) (d * c * 1.5)).
    { replace 3.79 with (3.72 + 0 + 0.07) by lra. apply Mr; [ | apply W_self | lra | lra]. replace 3.72 with (0.25 + 3.4 + 0.07) by lra. apply Mr; auto; lra. }
    assert (G2 : acc (8.77 * w) (rnd (rnd (rnd (rnd (D * D) * rnd (C' * C')) * y) * 0.5)) (- (d * d * (c * c) * (1 - z3) * 0.5))).
    { replace (- (d * d * (c * c) * (1 - z3) * 0.5)) with (d * d * (c * c) * - (1 - z3) * 0.5) by ring. replace 8.77 with (8.7 + 0 + 0.07) by lra. apply Mr; [ | apply W_self | lra | lra].
      replace 8.7 with (7.57 + 1.06 + 0.07) by lra. apply Mr; [ | exact O | lra | lra]. apply (W_weaken w Hw (0.57 + 6.87 + 0.07)); [lra | ]. apply Mr; [ | | lra | lra].
      - replace 0.57 with (0.25 + 0.25 + 0.07) by lra. apply Mr; auto; lra.
      - replace 6.87 with (3.4 + 3.4 + 0.07) by lra. apply Mr; auto; lra. }
    set (X1 := rnd (rnd (D * C') * 1.5)) in *. set (X2 := rnd (rnd _ * 0.5)) in *. clearbody X1 X2. unfold g.
    assert (0 < d * c) by (apply Rmult_lt_0_compat; auto). assert (0 < d * d * (c * c) * (1 - z3)) by (repeat apply Rmult_lt_0_compat; lra).
    assert (S1 : acc (3.85 * w) (rnd (f + X1)) (/ (1 - z3) + d * c * 1.5)). { replace 3.85 with (3.79 + 0.06) by lra. apply Rn; [lra | ]. apply acc_add; [lra | lra | | exact G1]. apply (W_weaken w Hw 1.13); [lra | exact F]. }
    apply (W_weaken w Hw (8.77 + 0.06)); [lra | ]. apply Rn; [lra | ]. replace (rnd (f + X1) - X2) with (rnd (f + X1) + - X2) by ring. apply acc_add; [lra | lra | | ].
    - apply (W_weaken w Hw 3.85); [lra | exact S1].
    - replace (d * d * (c * c) * (1 - z3) * 0.5) with (- - (d * d * (c * c) * (1 - z3) * 0.5)) by ring. apply acc_opp, G2.
  Qed.
  Lemma g_ge1 : 1 < g.
  Proof.
    assert (Pi : 0 < / (1 - z3)) by (apply Rinv_0_lt_compat; lra). assert (Pc : 0 < c) by (unfold c; repeat apply Rmult_lt_0_compat; lra).
    assert (0 < d * c) by (apply Rmult_lt_0_compat; auto). assert (0 < d * d * (c * c) * (1 - z3)) by (repeat apply Rmult_lt_0_compat; lra). unfold g.
    assert (1 < / (1 - z3)); [ | lra]. rewrite <- Rinv_1. apply Rinv_lt_contravar; lra.
  Qed.
  Hypothesis HL : libm_ok L.
  Lemma ln_g_err : Rabs (@nln (BNum L) (@g_hs (BNum L) D Z2 Z3) - ln g) <= w * (9.2 + 0.11 * ln g).
  Proof.
    pose proof g_acc as G. pose proof g_ge1 as G1. clearbody g. destruct G as (e & He & ->). cbn [nln BNum]. assert (Hg : 0 < ln g) by (apply ln_gt0; auto).
    assert (He' : Rabs e <= / 10 ^ 7) by lra. destruct (Rabs_le_inv _ _ He') as [e1 e2]. assert (Q : 0 < g * (1 + e)) by (apply Rmult_lt_0_compat; lra).
    destruct HL as (_ & _ & H3 & _). pose proof (H3 _ Q) as B. unfold within in B. replace (/ 2 ^ 52) with (2 * u) in B by (unfold u; lra). rewrite ln_mult in B by lra.
    pose proof (ln1_small e ltac:(lra)) as K. assert (Rabs e * (2 * Rabs e) <= 9.1 * w * (2 * / 10 ^ 7)) by (apply Rmult_le_compat; try lra; pose proof (Rabs_pos e); lra).
    assert (K' : Rabs (ln (1 + e)) <= 9.11 * w) by lra. set (l' := l_ln L (g * (1 + e))) in *. set (q := ln (1 + e)) in *. clearbody l' q.
    replace (l' - ln g) with (l' - (ln g + q) + q) by ring. eapply Rle_trans; [apply Rabs_triang | ]. assert (T : Rabs (ln g + q) <= ln g + 9.11 * w). { eapply Rle_trans; [apply Rabs_triang | ]. rewrite (Rabs_right (ln g)) by lra. lra. }
    assert (2 * u * Rabs (ln g + q) <= 2 * (w / 20) * (ln g + 9.11 * w)). { pose proof u_pos. pose proof U. apply Rmult_le_compat; try lra. apply Rabs_pos. }
    assert (w * w <= / 10 ^ 9 * w) by (apply Rmult_le_compat_r; lra). assert (0 < w * ln g) by (apply Rmult_lt_0_compat; lra). lra.
  Qed.
End Contact.

Section HC.
  Variable L : libm. Hypothesis HL : libm_ok L.
  Variables (p : params (BNum L)) (t v : R) (moles : list R).
  Hypothesis HS : sphere_state p t v moles.
  Let X := spheres p.
  Let n := length (p_m p).
  Let rho i := nth i moles 0 / v.
  Let z k := Zeta X t rho k.
  Let st := @state_new (BNum L) t v moles.
  Let d i := Di X t i.
  Let dl := @hs_diameter (BNum L) p t.
  Hypothesis He : z 3 < 1.
  Hypothesis Hn : INR n + 24 <= 9 * 10 ^ 6 * (1 - z 3).
  Let w := (INR n + 24) * u / (1 - z 3).
  Let Hw : 0 < w <= / 10 ^ 9 := w_b L p t v moles He Hn.
  Let lg i := ln (Gij X t rho i i).
  Let b i := rho i * (1 - M X i).

  Lemma z3_b : 0 < z 3 < 1. Proof. split; [apply (z_pos L p t v moles HS) | exact He]. Qed.
  Lemma U20 : u <= w / 20. Proof. apply (u20 w Hw (z 3) z3_b). apply (w_u L p t v moles He). Qed.
  Lemma Gii i : (i < n)%nat -> Gij X t rho i i = / (1 - z 3) + d i * (z 2 * / (1 - z 3) * / (1 - z 3)) * 1.5 + d i * d i * (z 2 * / (1 - z 3) * / (1 - z 3) * (z 2 * / (1 - z 3) * / (1 - z 3))) * (1 - z 3) * 0.5.
  Proof.
    intros Hi. assert (Pd : 0 < d i) by exact (d_pos L p t v moles HS i Hi). pose proof z3_b. unfold Gij. fold (d i). fold (z 2) (z 3). change (Di (spheres p) t i) with (d i) in Pd. generalize (d i) (z 2) (z 3) Pd H. clear. intros a b' c Ha Hc. replace 1.5 with (3 / 2) by lra. replace 0.5 with (/ 2) by lra. field. repeat split; lra.
  Qed.
  Lemma term_err i : (i < n)%nat -> 0 < lg i /\
    Rabs (@nmul (BNum L) (@nmul (BNum L) (@ix (BNum L) (s_rho st) i) (@nsub (BNum L) (@nlit (BNum L) 1) (@ix (BNum L) (p_m p) i)))
      (@nln (BNum L) (@g_hs (BNum L) (@ix (BNum L) dl i) (@zeta (BNum L) (p_m p) (s_rho st) dl 2) (@zeta (BNum L) (p_m p) (s_rho st) dl 3))) - b i * lg i)
    <= 9.7 * w * (Rabs (b i) * (1 + lg i)).
  Proof.
    intros Hi. pose proof z3_b as P3. assert (P2 : 0 < z 2) by exact (z_pos L p t v moles HS 2). assert (Pd : 0 < d i) by exact (d_pos L p t v moles HS i Hi). assert (Hu : u <= w * (1 - z 3) / 24) by exact (w_u L p t v moles He). pose proof U20 as U. pose proof u_pos as U0.
    pose proof (w_one L p t v moles HS He Hn _ _ (zeta_acc L HL p t v moles HS He Hn 2 ltac:(lia))) as A2. pose proof (zeta_acc L HL p t v moles HS He Hn 3 ltac:(lia)) as A3.
    assert (Ad : acc (0.25 * w) (@ix (BNum L) dl i) (d i)).
    { eapply acc_weaken; [ | apply rp_acc; [ | apply (d_rp L HL p t v moles HS i Hi)]]; replace (INR 5) with 5 by (cbn; lra); [ | pose proof u_small; lra].
      assert (u <= w / 24). { assert (w * (1 - z 3) <= w * 1) by (apply Rmult_le_compat_l; lra). lra. } assert (u * u <= u * / 10 ^ 15) by (apply Rmult_le_compat_l; [lra | apply u_small]). lra. }
    pose proof (ln_g_err L w Hw (z 2) (z 3) (d i) P2 P3 Pd Hu _ _ _ A2 A3 Ad HL) as E. pose proof (g_ge1 (z 2) (z 3) (d i) P2 P3 Pd) as G1. rewrite <- (Gii i Hi) in E, G1. fold (lg i) in E.
    assert (Pl : 0 < lg i) by (apply ln_gt0; auto). split; [exact Pl | ].
    set (l' := @nln (BNum L) _) in *. change (car (BNum L)) with R in *. clearbody l'. rewrite lit1.
    assert (Ab : acc (0.2 * w) (@nmul (BNum L) (@ix (BNum L) (s_rho st) i) (@nsub (BNum L) 1 (@ix (BNum L) (p_m p) i))) (b i)).
    { cbn [nmul nsub BNum]. apply (W_weaken w Hw (0.06 + 0.06 + 0.07)); [lra | ]. unfold b. apply (W_mulr w Hw U); [ | | lra | lra].
      - eapply acc_weaken; [ | apply rp_acc; [ | apply (rho_rp L p t v moles HS i Hi)]]; replace (INR 1) with 1 by (cbn; lra); [ | pose proof u_small; lra]. assert (u * u <= u * / 10 ^ 15) by (apply Rmult_le_compat_l; [lra | apply u_small]). lra.
      - apply (W_weaken w Hw (0 + 0.06)); [lra | ]. rewrite ixb. cbn [M X spheres]. apply (W_rnd w Hw U); [lra | apply W_self]. }
    set (b' := @nmul (BNum L) (@ix (BNum L) (s_rho st) i) _) in *. change (car (BNum L)) with R in *. clearbody b'. apply W_abs in Ab. cbn [nmul BNum].
    pose proof (Rabs_pos (b i)) as Pb. set (B := Rabs (b i)) in *. set (l := lg i) in *. clearbody l. set (bb := b i) in *. clearbody bb.
    assert (PWl : 0 < w * l) by (apply Rmult_lt_0_compat; lra). assert (Hwl : w * l <= / 10 ^ 9 * l) by (apply Rmult_le_compat_r; lra).
    assert (Hl : Rabs l' <= 1.001 * l + 0.001). { replace l' with (l' - l + l) by ring. eapply Rle_trans; [apply Rabs_triang | ]. rewrite (Rabs_right l) by lra. lra. }
    assert (HwB : w * B <= / 10 ^ 9 * B) by (apply Rmult_le_compat_r; lra). assert (Hb : Rabs b' <= 1.001 * B). { replace b' with (b' - bb + bb) by ring. eapply Rle_trans; [apply Rabs_triang | ]. fold B. lra. }
    destruct (rnd_err (b' * l')) as (f & Hf & ->). replace (b' * l' * (1 + f) - bb * l) with ((b' - bb) * l' + bb * (l' - l) + b' * l' * f) by ring.
    eapply Rle_trans; [apply Rabs_triang | ]. eapply Rle_trans; [apply Rplus_le_compat_r, Rabs_triang | ]. rewrite !Rabs_mult. fold B.
    assert (E1 : Rabs (b' - bb) * Rabs l' <= 0.2 * w * B * (1.001 * l + 0.001)) by (apply Rmult_le_compat; auto; apply Rabs_pos).
    assert (E2 : B * Rabs (l' - l) <= B * (w * (9.2 + 0.11 * l))) by (apply Rmult_le_compat_l; auto).
    assert (E3 : Rabs b' * Rabs l' * Rabs f <= 1.001 * B * (1.001 * l + 0.001) * (w / 20)). { apply Rmult_le_compat; [apply Rmult_le_pos; apply Rabs_pos | apply Rabs_pos | | lra]. apply Rmult_le_compat; auto; apply Rabs_pos. }
    assert (PB : 0 <= w * B) by (apply Rmult_le_pos; lra). assert (PBl : 0 <= w * B * l) by (apply Rmult_le_pos; lra).
    replace (0.2 * w * B * (1.001 * l + 0.001)) with (0.2002 * (w * B * l) + 0.0002 * (w * B)) in E1 by lra. replace (B * (w * (9.2 + 0.11 * l))) with (9.2 * (w * B) + 0.11 * (w * B * l)) in E2 by ring.
    replace (1.001 * B * (1.001 * l + 0.001) * (w / 20)) with (0.05010005 * (w * B * l) + 0.00005005 * (w * B)) in E3 by lra.
    replace (9.7 * w * (B * (1 + l))) with (9.7 * (w * B) + 9.7 * (w * B * l)) by ring. lra.
  Qed.
  Let W := rsum (seq 0 n) (fun i => Rabs (b i) * (1 + lg i)).
  Lemma chain_err : Rabs (@a_hc (BNum L) p st - v * f_hc X t rho) <= 11 * w * (v * W).
  Proof.
    pose proof U20 as U. pose proof u_pos as U0. pose proof (ss_v _ _ _ _ HS) as Pv. pose proof z3_b as P3.
    unfold a_hc. cbv zeta. change (s_t st) with t. change (s_v st) with v. fold dl. fold n. set (f := fun i : nat => @nmul (BNum L) _ _).
    assert (TE : forall i, (i < n)%nat -> 0 < lg i /\ Rabs (f i - b i * lg i) <= 9.7 * w * (Rabs (b i) * (1 + lg i))) by exact term_err. clearbody f.
    assert (F : f_hc X t rho = rsum (seq 0 n) (fun i => b i * lg i)).
    { unfold f_hc. change (N X) with n. rewrite <- rsum_opp. apply rsum_ext. intros i _. unfold b, lg. ring. }
    rewrite F. unfold nsumi. rewrite nsum_bsum. unfold mk1. change (car (BNum L)) with R in *.
    pose proof (bsum_err (map f (seq 0 n)) 0) as E. rewrite map_length, seq_length, Rabs_R0, !Rplus_0_l, !rsum_map in E. 
    assert (PW : 0 <= W). { apply rsum_nonneg. intros i Hi. apply in_seq in Hi. destruct (TE i) as [Pl _]; [lia | ]. apply Rmult_le_pos; [apply Rabs_pos | lra]. }
    assert (E1 : Rabs (rsum (seq 0 n) (fun i => f i) - rsum (seq 0 n) (fun i => b i * lg i)) <= 9.7 * w * W).
    { rewrite <- rsum_minus. eapply Rle_trans; [apply rsum_abs | ]. unfold W. rewrite <- rsum_scal. apply rsum_le. intros i Hi. apply in_seq in Hi. apply TE. lia. }
    assert (E2 : rsum (seq 0 n) (fun i => Rabs (f i)) <= 1.001 * W).
    { unfold W. rewrite <- rsum_scal. apply rsum_le. intros i Hi. apply in_seq in Hi. destruct (TE i) as [Pl Te]; [lia | ]. replace (f i) with (f i - b i * lg i + b i * lg i) by ring. eapply Rle_trans; [apply Rabs_triang | ].
      rewrite (Rabs_mult (b i)), (Rabs_right (lg i)) by lra. set (B := Rabs (b i)) in *. pose proof (Rabs_pos (b i)) as PB. fold B in PB. assert (w * (B * (1 + lg i)) <= / 10 ^ 9 * (B * (1 + lg i))) by (apply Rmult_le_compat_r; [apply Rmult_le_pos; lra | lra]).
      assert (0 <= B * (1 + lg i)) by (apply Rmult_le_pos; lra). lra. }
    assert (Nw : INR n * u <= w). { assert (w * (1 - z 3) <= w * 1) by (apply Rmult_le_compat_l; lra). assert (Ew : w * (1 - z 3) = (INR n + 24) * u) by exact (w_eq L p t v moles He). lra. }
    assert (E3 : (1 + u) ^ n - 1 <= 1.001 * w).
    { eapply Rle_trans; [apply pow_1u; lra | ]. pose proof (pos_INR n) as N0. assert (0 <= INR n * u) by (apply Rmult_le_pos; lra). assert (INR n * u * (INR n * u) <= w * w) by (apply Rmult_le_compat; lra). assert (w * w <= / 10 ^ 9 * w) by (apply Rmult_le_compat_r; lra). lra. }
    assert (P1 : 0 <= (1 + u) ^ n - 1) by (pose proof (pow_R1_Rle (1 + u) n ltac:(lra)); lra).
    assert (E4 : ((1 + u) ^ n - 1) * rsum (seq 0 n) (fun i => Rabs (f i)) <= 1.001 * w * (1.001 * W)). { apply Rmult_le_compat; auto. apply rsum_nonneg. intros; apply Rabs_pos. }
    set (B := bsum (map f (seq 0 n)) 0) in *. set (S1 := rsum (seq 0 n) (fun i => f i)) in *. set (S2 := rsum (seq 0 n) (fun i => b i * lg i)) in *.
    assert (PwW : 0 <= w * W) by (apply Rmult_le_pos; lra). assert (HwW : w * W <= / 10 ^ 9 * W) by (apply Rmult_le_compat_r; lra).
    assert (E5 : Rabs (B - S2) <= 10.71 * (w * W)). { replace (B - S2) with (B - S1 + (S1 - S2)) by ring. eapply Rle_trans; [apply Rabs_triang | ]. lra. }
    assert (E6 : Rabs B <= 1.1 * W).
    { replace B with (B - S1 + S1) by ring. eapply Rle_trans; [apply Rabs_triang | ]. assert (Rabs S1 <= 1.001 * W); [ | lra]. eapply Rle_trans; [apply rsum_abs | exact E2]. }
    cbn [nmul BNum]. destruct (rnd_err (B * v)) as (e & H & ->). replace (B * v * (1 + e) - v * S2) with (v * (B - S2 + B * e)) by ring. rewrite Rabs_mult, (Rabs_right v) by lra.
    replace (11 * w * (v * W)) with (v * (11 * (w * W))) by ring. apply Rmult_le_compat_l; [lra | ]. eapply Rle_trans; [apply Rabs_triang | ]. rewrite Rabs_mult.
    assert (Rabs B * Rabs e <= 1.1 * W * (w / 20)) by (apply Rmult_le_compat; try apply Rabs_pos; lra). lra.
  Qed.
End HC.

(** The hard-chain contribution computed with f64 is correct to 11 (n + 24)/(1 - eta) units of roundoff,
    relative to the weights N_i |m_i - 1| (1 + ln g_ii) of its terms. *)
Theorem C52_hard_chain L (p : params (BNum L)) t v moles : libm_ok L -> sphere_state p t v moles ->
  let c := length (p_m p) in let n := INR c in let rho := fun i => nth i moles 0 / v in let eta := Zeta (spheres p) t rho 3 in
  eta < 1 -> n + 24 <= 9 * 10 ^ 6 * (1 - eta) ->
  Rabs (@a_hc (BNum L) p (@state_new (BNum L) t v moles) - v * f_hc (spheres p) t rho)
    <= 11 * (n + 24) / (1 - eta) / 2 ^ 53 * Sum i < c, nth i moles 0 * Rabs (nth i (p_m p) 0 - 1) * (1 + ln (Gij (spheres p) t rho i i)).
Proof.
  intros HL HS c n rho eta He Hn. eapply Rle_trans; [apply (chain_err L HL p t v moles HS He Hn) | ]. fold rho eta c n. pose proof (ss_v _ _ _ _ HS) as Pv. right.
  rewrite <- rsum_scal. replace (11 * ((n + 24) * u / (1 - eta))) with (11 * (n + 24) / (1 - eta) / 2 ^ 53) by (unfold u; field; lra).
  rewrite <- !rsum_scal. apply rsum_ext. intros i Hi. apply in_seq in Hi. destruct (ss_par _ _ _ _ HS i) as (_ & _ & _ & Pn); [fold c; lia | ]. rewrite Rabs_mult. unfold rho at 1. rewrite (Rabs_right (nth i moles 0 / v)).
  - rewrite (Rabs_minus_sym (nth i (p_m p) 0)). cbn [M spheres]. fold rho. f_equal. field. lra.
  - apply Rle_ge, Rmult_le_pos; [auto | left; apply Rinv_0_lt_compat; auto].
Qed.

(** Relative to the (vanishing) contribution itself nothing is left at very low density: 1 + x rounds to 1
    and its logarithm to zero, while the exact contribution is negative. *)
Lemma rnd_1p x : 0 <= x <= / 2 ^ 55 -> rnd (1 + x) = 1.
Proof.
  intros H. rewrite (rnd_binade (1 + x) (2 ^ 52) (-52)).
  - cbn. lra.
  - cbn. lra.
  - cbn. rewrite Rabs_right; lra.
Qed.
Lemma rnd_1m x : 0 <= x <= / 2 ^ 55 -> rnd (1 - x) = 1.
Proof.
  intros H. destruct (Req_dec x 0) as [-> | N]; [rewrite Rminus_0_r; apply rnd_1 | ]. rewrite (rnd_binade (1 - x) (2 ^ 53) (-53)).
  - cbn. lra.
  - cbn. lra.
  - cbn. rewrite Rabs_left; lra.
Qed.
Definition b_chain L : pure_record (BNum L) :=
  @mkPure (BNum L) (mkIdent None None None None None None) 30 (@mkRec (BNum L) 2 1 0 None None None None None None None None None) None.
Definition p_chain L := @from_records_raw (BNum L) [b_chain L] [[0]].
Lemma chain_state L v : 1 <= v -> sphere_state (p_chain L) 300 v [1].
Proof.
  intros Hv. constructor; try lra; try (cbn; auto; fail).
  - intros i Hi. cbn in Hi. destruct i as [ | i]; [ | lia]. cbn. lra.
  - exists 0%nat. cbn. split; [lia | lra].
Qed.
Lemma chain_zeta L v k : 1 <= v -> Zeta (spheres (p_chain L)) 300 (fun i => nth i [1] 0 / v) k = PI / 6 * (/ v * 2 * 0.88 ^ k).
Proof.
  intros Hv. unfold Zeta, Di. cbn [N M Sg Ep spheres p_chain from_records_raw p_m p_sigma p_epsilon_k rsum seq length map nth].
  change (@r_m (BNum L) (pr_model (b_chain L))) with 2 in *. change (@r_sigma (BNum L) (pr_model (b_chain L))) with 1 in *. change (@r_epsilon_k (BNum L) (pr_model (b_chain L))) with 0 in *. replace (-3 * 0 / 300) with 0 by lra. rewrite exp_0. replace (1 * (1 - 12 / 100 * 1)) with 0.88 by lra. field. lra.
Qed.
Lemma rp_nonneg_le k x y : (k <= 100)%nat -> 0 <= y -> rp k x y -> 0 <= x <= 2 * y.
Proof.
  intros Hk Hy (q & Hq & ->). pose proof (o_pow k). assert (/ 2 <= o ^ k). { pose proof (o_pow_lower k). assert (INR k * u <= 100 * / 10 ^ 15). { apply Rmult_le_compat; [apply pos_INR | left; apply u_pos | | apply u_small]. replace 100 with (INR 100) by (cbn; lra). apply le_INR. auto. } lra. }
  assert (/ o ^ k <= 2) by (replace 2 with (/ / 2) by lra; apply Rinv_le_contravar; lra). split; [apply Rmult_le_pos; lra | ]. rewrite Rmult_comm. apply Rmult_le_compat_r; lra.
Qed.
Theorem C52_low_density_chain_refuted L v : libm_ok L -> 2 ^ 70 <= v ->
  sphere_state (p_chain L) 300 v [1] /\
  @a_hc (BNum L) (p_chain L) (@state_new (BNum L) 300 v [1]) = 0 /\ v * f_hc (spheres (p_chain L)) 300 (fun i => nth i [1] 0 / v) < 0.
Proof.
  intros HL Hv. assert (V1 : 1 <= v) by lra. pose proof (chain_state L v V1) as S. split; [exact S | ]. pose proof PI_4 as PI4. pose proof PI_RGT_0 as PI0.
  assert (Iv : 0 < / v <= / 2 ^ 70) by (split; [apply Rinv_0_lt_compat; lra | apply Rinv_le_contravar; lra]).
  assert (ZB : forall k, (2 <= k <= 3)%nat -> 0 < Zeta (spheres (p_chain L)) 300 (fun i => nth i [1] 0 / v) k <= 2 * / 2 ^ 70).
  { intros k Hk. rewrite chain_zeta by auto. assert (K : 0 < 0.88 ^ k <= 1) by (destruct k as [ | [ | [ | [ | k]]]]; try lia; cbn; lra). 
    assert (0 < / v * 2 * 0.88 ^ k <= / 2 ^ 70 * 2 * 1). { set (y := 0.88 ^ k) in *. set (x := / v) in *. clearbody x y. split; [apply Rmult_lt_0_compat; lra | apply Rmult_le_compat; lra]. } set (y := / v * 2 * 0.88 ^ k) in *. clearbody y. split; [apply Rmult_lt_0_compat; lra | ]. apply Rle_trans with (4 / 6 * (/ 2 ^ 70 * 2 * 1)); [apply Rmult_le_compat; lra | lra]. }
  split.
  - pose proof (zeta_rp L HL _ 300 v [1] S 2 ltac:(lia)) as Z2. apply rp_nonneg_le in Z2; [ | cbn; lia | apply Rlt_le, ZB; lia].
    pose proof (zeta_rp L HL _ 300 v [1] S 3 ltac:(lia)) as Z3. apply rp_nonneg_le in Z3; [ | cbn; lia | apply Rlt_le, ZB; lia].
    pose proof (d_rp L HL _ 300 v [1] S 0 ltac:(cbn; lia)) as D. apply rp_nonneg_le in D; [ | lia | apply Rlt_le, (d_pos L _ 300 v [1] S 0); cbn; lia].
    assert (D88 : Di (spheres (p_chain L)) 300 0 <= 1). { unfold Di. cbn [Sg Ep spheres p_chain from_records_raw p_m p_sigma p_epsilon_k map nth]. change (@r_m (BNum L) (pr_model (b_chain L))) with 2 in *. change (@r_sigma (BNum L) (pr_model (b_chain L))) with 1 in *. change (@r_epsilon_k (BNum L) (pr_model (b_chain L))) with 0 in *. pose proof (exp_pos (-3 * 0 / 300)). lra. }
    pose proof (ZB 2%nat ltac:(lia)) as B2. pose proof (ZB 3%nat ltac:(lia)) as B3. unfold a_hc. cbv zeta. change (s_t (@state_new (BNum L) 300 v [1])) with 300. change (s_v (@state_new (BNum L) 300 v [1])) with v.
    set (st := @state_new (BNum L) 300 v [1]) in *. set (dl := @hs_diameter (BNum L) (p_chain L) 300) in *. set (z2 := @zeta (BNum L) (p_m (p_chain L)) (s_rho st) dl 2) in *. set (z3 := @zeta (BNum L) (p_m (p_chain L)) (s_rho st) dl 3) in *.
    set (d := @ix (BNum L) dl 0) in *.
    assert (G : @g_hs (BNum L) d z2 z3 = 1).
    { unfold g_hs. rewrite lit1, lit15, lit05. clearbody z2 z3 d. change (car (BNum L)) with R in *. cbn [nopp nrecip nsub nadd nmul npowi BNum bpowi].
      replace (z3 - 1) with (- (1 - z3)) by ring. rewrite rnd_opp, rnd_1m by lra. replace (- rnd (/ - (1))) with 1 by (replace (/ - (1)) with (- (1)) by (field; lra); rewrite rnd_opp, rnd_1; lra). rewrite !Rmult_1_r.
      assert (RB : forall x m, 0 <= x <= m -> 0 <= rnd x <= 2 * m). { intros x m Hx. destruct (rp_nonneg_le 1 (rnd x) x ltac:(lia) ltac:(lra) (rp_rnd 0 _ _ (rp_refl x))). lra. }
      assert (C1 : 0 <= rnd (rnd z2) <= 16 / 2 ^ 70) by (pose proof (RB z2 (4 * / 2 ^ 70) ltac:(lra)); pose proof (RB (rnd z2) (8 * / 2 ^ 70) ltac:(lra)); lra). set (c := rnd (rnd z2)) in *. clearbody c.
      assert (H1 : 0 <= d * c <= 2 * (16 / 2 ^ 70)) by (split; [apply Rmult_le_pos; lra | apply Rmult_le_compat; lra]). pose proof (RB _ _ H1) as H2. set (dc := rnd (d * c)) in *. clearbody dc.
      assert (H3 : 0 <= dc * 1.5 <= 100 / 2 ^ 70) by lra. pose proof (RB _ _ H3) as H4. set (a := rnd (dc * 1.5)) in *. clearbody a. rewrite rnd_1p by lra.
      assert (D2 : 0 <= rnd (d * d) <= 8). { assert (0 <= d * d <= 2 * 2) by (split; [apply Rmult_le_pos; lra | apply Rmult_le_compat; lra]). pose proof (RB _ _ H). lra. }
      assert (C2 : 0 <= rnd (c * c) <= / 2 ^ 100). { assert (0 <= c * c <= 16 / 2 ^ 70 * (16 / 2 ^ 70)) by (split; [apply Rmult_le_pos; lra | apply Rmult_le_compat; lra]). pose proof (RB _ _ H). lra. }
      set (d2 := rnd (d * d)) in *. set (c2 := rnd (c * c)) in *. clearbody d2 c2. assert (H5 : 0 <= d2 * c2 <= 8 * / 2 ^ 100) by (split; [apply Rmult_le_pos; lra | apply Rmult_le_compat; lra]). pose proof (RB _ _ H5) as H6.
      set (q := rnd (d2 * c2)) in *. clearbody q. replace (q * - (1)) with (- q) by ring. rewrite rnd_opp. pose proof (RB _ _ H6) as H7. replace (- rnd q * 0.5) with (- (rnd q * 0.5)) by ring. rewrite rnd_opp. assert (H8 : 0 <= rnd q * 0.5 <= 100 * / 2 ^ 100) by lra. pose proof (RB _ _ H8) as H9.
      replace (1 - - rnd (rnd q * 0.5)) with (1 + rnd (rnd q * 0.5)) by ring. apply rnd_1p. lra. }
    assert (L1 : @nln (BNum L) 1 = 0). { destruct HL as (_ & _ & H3 & _). specialize (H3 1 ltac:(lra)). unfold within in H3. rewrite ln_1, Rabs_R0, Rmult_0_r, Rminus_0_r in H3. cbn [nln BNum]. pose proof (Rabs_pos (l_ln L 1)). destruct (Req_dec (l_ln L 1) 0); auto. apply Rabs_pos_lt in H0. lra. }
    unfold nsumi, mk1. cbn [p_chain from_records_raw p_m length map seq]. fold d z2 z3.
    match goal with |- context [@g_hs (BNum L) ?a ?b ?c] => change (@g_hs (BNum L) a b c) with (@g_hs (BNum L) d z2 z3) end. rewrite G, L1. unfold nsum. cbn [fold_left]. rewrite lit0. cbn [nadd nmul BNum]. rewrite Rmult_0_r, rnd_0, Rplus_0_l, rnd_0, Rmult_0_l. apply rnd_0.
  - assert (E3 : Zeta (spheres (p_chain L)) 300 (fun i => nth i [1] 0 / v) 3 < 1) by (pose proof (ZB 3%nat ltac:(lia)); lra).
    pose proof (Gii L (p_chain L) 300 v [1] S E3 0 ltac:(cbn; lia)) as G. pose proof (g_ge1 _ _ _ (proj1 (ZB 2%nat ltac:(lia))) (conj (proj1 (ZB 3%nat ltac:(lia))) E3) (d_pos L _ 300 v [1] S 0 ltac:(cbn; lia))) as G1. rewrite <- G in G1.
    assert (Pl := ln_gt0 _ G1). unfold f_hc. cbn [N M spheres p_chain from_records_raw p_m length map seq rsum nth]. change (@r_m (BNum L) (pr_model (b_chain L))) with 2 in *. change (@r_sigma (BNum L) (pr_model (b_chain L))) with 1 in *. change (@r_epsilon_k (BNum L) (pr_model (b_chain L))) with 0 in *. set (l := ln _) in *. clearbody l. 
    assert (0 < v * (1 / v * (2 - 1) * l)) by (repeat apply Rmult_lt_0_compat; try lra; apply Rdiv_lt_0_compat; lra). lra.
Qed.

Example C52_hard_chain_case : let L := exact_libm in let p := p_chain L in
  let a := @a_hc (BNum L) p (@state_new (BNum L) 300 5 [1]) in let rho := fun i => nth i [1] 0 / 5 in let f := 5 * f_hc (spheres p) 300 rho in
  sphere_state p 300 5 [1] /\ Rabs (a - f) <= / 10 ^ 13 * (1 + ln (Gij (spheres p) 300 rho 0 0)) /\ f < 0.
Proof.
  intros L p a rho f. assert (S : sphere_state p 300 5 [1]) by (apply chain_state; lra). split; [exact S | ]. pose proof PI_4 as PI4. pose proof PI_RGT_0 as PI0.
  assert (E : 0 < Zeta (spheres p) 300 rho 3 <= 0.2). { unfold p, rho. rewrite chain_zeta by lra. split; [apply Rmult_lt_0_compat; lra | ]. replace (/ 5 * 2 * 0.88 ^ 3) with 0.2725888 by lra. lra. }
  assert (E3 : Zeta (spheres p) 300 rho 3 < 1) by lra. pose proof (Gii L p 300 5 [1] S E3 0 ltac:(cbn; lia)) as G. pose proof (g_ge1 _ _ _ (z_pos L p 300 5 [1] S 2) (conj (z_pos L p 300 5 [1] S 3) E3) (d_pos L _ 300 5 [1] S 0 ltac:(cbn; lia))) as G1. rewrite <- G in G1. fold rho in G1.
  assert (Pl := ln_gt0 _ G1). split.
  - eapply Rle_trans; [apply (C52_hard_chain L p 300 5 [1] exact_libm_ok S); fold rho; cbn [p p_chain from_records_raw p_m length map INR]; lra | ]. fold rho. set (e := Zeta _ _ _ 3) in *.
    cbn [p p_chain from_records_raw p_m length map INR rsum seq nth]. change (@r_m (BNum L) (pr_model (b_chain L))) with 2 in *. change (@r_sigma (BNum L) (pr_model (b_chain L))) with 1 in *. change (@r_epsilon_k (BNum L) (pr_model (b_chain L))) with 0 in *. change (@from_records_raw (BNum L) [b_chain L] [[0]]) with p. set (l := ln _) in *. clearbody l e. rewrite Rabs_right by lra.
    assert (I : / (1 - e) <= / 0.8) by (apply Rinv_le_contravar; lra). apply Rle_trans with (11 * 25 * / 0.8 * / 2 ^ 53 * (1 + l)); [ | apply Rmult_le_compat_r; lra]. unfold Rdiv. replace (1 * (2 - 1) * (1 + l) + 0) with (1 + l) by ring. apply Rmult_le_compat_r; [lra | ]. lra.
  - unfold f, f_hc. cbn [N M spheres p p_chain from_records_raw p_m length map seq rsum nth]. change (@r_m (BNum L) (pr_model (b_chain L))) with 2 in *. change (@r_sigma (BNum L) (pr_model (b_chain L))) with 1 in *. change (@r_epsilon_k (BNum L) (pr_model (b_chain L))) with 0 in *. change (@from_records_raw (BNum L) [b_chain L] [[0]]) with p. set (l := ln _) in *. clearbody l. unfold rho. cbn [nth]. lra.
Qed.
Print Assumptions C52_hard_chain.
Print Assumptions C52_low_density_chain_refuted.
