(** C52: rounding of the dipole contribution of mixtures with any number of dipolar components. *)
From Coq Require Import ZArith QArith Reals Lra Lia List Bool.
From Flocq Require Import Core Relative.
From Interval Require Import Tactic.
From Verif Require Import Num RNum RSum Tables M_Params M_Eos Spec F_Params P_Basic BNum F_Round F_Round2 F_Round3 P_RoundD P_RoundH P_RoundA P_RoundP.
From Verif Require F_SpecPolar.
Import ListNotations.
Local Open Scope R_scope.
Set Bullet Behavior "Strict Subproofs".
Notation length := List.length.

(** lists of computed values, exact values and magnitudes *)
Inductive tl (k : nat) : list R -> list R -> list R -> Prop :=
| tl_nil : tl k nil nil nil
| tl_cons x y s lx ly ls : er1 k x y s -> tl k lx ly ls -> tl k (x :: lx) (y :: ly) (s :: ls).
Lemma tl_app k a b c a' b' c' : tl k a b c -> tl k a' b' c' -> tl k (a ++ a') (b ++ b') (c ++ c').
Proof. induction 1; cbn; auto. intros. constructor; auto. Qed.
Lemma tl_map {A} k (f g h : A -> R) l : (forall i, In i l -> er1 k (f i) (g i) (h i)) -> tl k (map f l) (map g l) (map h l).
Proof. induction l as [ | i l IH]; cbn; intros H; constructor; auto. Qed.
Lemma tl_flat {A} k (f g h : A -> list R) l : (forall i, In i l -> tl k (f i) (g i) (h i)) -> tl k (flat_map f l) (flat_map g l) (flat_map h l).
Proof. induction l as [ | i l IH]; cbn; intros H; [constructor | ]. apply tl_app; auto. Qed.
Lemma tl_subs L k lx ly ls : tl k lx ly ls -> forall j x y s, (k <= j)%nat -> er1 j x y s -> er1 (j + length lx) (fold_left (@nsub (BNum L)) lx x) (y - rsum ly (fun z => z)) (s + rsum ls (fun z => z)).
Proof.
  induction 1 as [ | x0 y0 s0 lx ly ls H0 H IH]; intros j x y s Hj E; cbn [fold_left length rsum].
  - rewrite Nat.add_0_r. replace (y - 0) with y by ring. replace (s + 0) with s by ring. auto.
  - replace (j + S (length lx))%nat with (S j + length lx)%nat by lia. replace (y - (y0 + rsum ly (fun z => z))) with (y - y0 - rsum ly (fun z => z)) by ring. replace (s + (s0 + rsum ls (fun z => z))) with (s + s0 + rsum ls (fun z => z)) by ring.
    apply IH; [lia | ]. cbn [nsub BNum]. apply er1_rnd, er1_sub; auto. apply er1_k with k; auto.
Qed.
Lemma tl_adds L k lx ly ls : tl k lx ly ls -> forall j x y s, (k <= j)%nat -> er1 j x y s -> er1 (j + length lx) (fold_left (@nadd (BNum L)) lx x) (y + rsum ly (fun z => z)) (s + rsum ls (fun z => z)).
Proof.
  induction 1 as [ | x0 y0 s0 lx ly ls H0 H IH]; intros j x y s Hj E; cbn [fold_left length rsum].
  - rewrite Nat.add_0_r, !Rplus_0_r. auto.
  - replace (j + S (length lx))%nat with (S j + length lx)%nat by lia. rewrite <- !Rplus_assoc. apply IH; [lia | ]. cbn [nadd BNum]. apply er1_rnd, er1_add; auto. apply er1_k with k; auto.
Qed.
Lemma flat_length {A B} (f : A -> list B) c l : (forall i, In i l -> (length (f i) <= c)%nat) -> (length (flat_map f l) <= length l * c)%nat.
Proof. induction l as [ | i l IH]; cbn [flat_map length]; intros H; [lia | ]. rewrite app_length. pose proof (H i (or_introl eq_refl)). specialize (IH (fun j Hj => H j (or_intror Hj))). lia. Qed.
Lemma above_lt i n j : In j (above i n) -> (i < j < n)%nat. Proof. unfold above. rewrite in_seq. lia. Qed.
Lemma tri2_tl k L n (dx : nat -> R) ox (dy : nat -> R) oy (ds : nat -> R) os :
  (forall i, (i < n)%nat -> er1 k (dx i) (dy i) (ds i)) -> (forall i j, (i < j)%nat -> (j < n)%nat -> er1 k (ox i j) (oy i j) (os i j)) ->
  tl k (@tri2 (BNum L) n dx ox) (@tri2 RNum n dy oy) (@tri2 RNum n ds os).
Proof.
  intros Hd Ho. unfold tri2. apply tl_flat. intros i Hi. apply in_seq in Hi. constructor; [apply Hd; lia | ]. apply tl_map. intros j Hj. apply above_lt in Hj. apply Ho; lia.
Qed.
Lemma tri2_length K n d o : (length (@tri2 K n d o) <= n * n)%nat.
Proof. unfold tri2. rewrite <- (seq_length n 0) at 2. apply flat_length. intros i Hi. apply in_seq in Hi. cbn [length]. rewrite map_length. unfold above. rewrite seq_length. lia. Qed.
Lemma tri3_tl k L n (dx : nat -> R) ix1 ix2 ix3 (dy : nat -> R) iy1 iy2 iy3 (ds : nat -> R) is1 is2 is3 :
  (forall i, (i < n)%nat -> er1 k (dx i) (dy i) (ds i)) -> (forall i j, (i < n)%nat -> (j < n)%nat -> er1 k (ix1 i j) (iy1 i j) (is1 i j)) -> (forall i j, (i < n)%nat -> (j < n)%nat -> er1 k (ix2 i j) (iy2 i j) (is2 i j)) ->
  (forall i j l, (i < n)%nat -> (j < n)%nat -> (l < n)%nat -> er1 k (ix3 i j l) (iy3 i j l) (is3 i j l)) ->
  tl k (@tri3 (BNum L) n dx ix1 ix2 ix3) (@tri3 RNum n dy iy1 iy2 iy3) (@tri3 RNum n ds is1 is2 is3).
Proof.
  intros Hd H1 H2 H3. unfold tri3. apply tl_flat. intros i Hi. apply in_seq in Hi. constructor; [apply Hd; lia | ]. apply tl_flat. intros j Hj. apply above_lt in Hj. constructor; [apply H1; lia | ]. constructor; [apply H2; lia | ]. apply tl_map. intros l Hl. apply above_lt in Hl. apply H3; lia.
Qed.
Lemma tri3_length K n d o1 o2 o3 : (length (@tri3 K n d o1 o2 o3) <= n * (n * n))%nat.
Proof.
  unfold tri3. rewrite <- (seq_length n 0) at 2. apply flat_length. intros i Hi. apply in_seq in Hi. cbn [length].
  assert (H : (length (flat_map (fun j => o1 i j :: o2 i j :: map (o3 i j) (above j n)) (above i n)) <= length (above i n) * n)%nat).
  { apply flat_length. intros j Hj. apply above_lt in Hj. cbn [length]. rewrite map_length. unfold above. rewrite seq_length. lia. }
  assert (HL : length (above i n) = (n - S i)%nat) by (unfold above; apply seq_length). rewrite HL in H. destruct n as [ | n]; [lia | ]. assert ((S n - S i) * S n <= n * S n)%nat by (apply Nat.mul_le_mono_r; lia). lia.
Qed.

(** cube roots *)
Definition cbrt_ok (L : libm) : Prop := forall x, 0 < x -> within (/ 2 ^ 52) (l_cbrt L x) (Rcbrt x).
Lemma rp_cbrt k x y : 0 < y -> rp k x y -> rp k (Rcbrt x) (Rcbrt y).
Proof.
  intros Hy (q & [A B] & ->). destruct (o_pow k) as [P P1]. assert (Pq : 0 < q) by lra. exists (Rcbrt q).
  assert (Mc : Rcbrt (y * q) = Rcbrt y * Rcbrt q).
  { unfold Rcbrt. assert (0 < y * q) by (apply Rmult_lt_0_compat; auto). destruct (Rlt_dec 0 (y * q)); [ | lra]. destruct (Rlt_dec 0 y); [ | lra]. destruct (Rlt_dec 0 q); [ | lra]. symmetry. apply Rpower_mult_distr; auto. }
  split; auto. pose proof (Rcbrt_pos q Pq) as Pc. pose proof (Rcbrt_cube q Pq) as C. set (c := Rcbrt q) in *. clearbody c.
  assert (LE : forall z w, 0 < z -> 0 < w -> z ^ 3 <= w ^ 3 -> z <= w). { intros z w Hz Hw H. apply Rnot_lt_le. intros L1. assert (w * w < z * z) by (apply Rmult_le_0_lt_compat; lra). assert (w * w * w < z * z * z); [ | replace (z ^ 3) with (z * z * z) in H by ring; replace (w ^ 3) with (w * w * w) in H by ring; lra]. assert (0 < w * w) by (apply Rmult_lt_0_compat; auto). apply Rmult_le_0_lt_compat; lra. }
  set (b := o ^ k) in *. assert (Pi : 0 < / b) by (apply Rinv_0_lt_compat; auto). assert (I1 : 1 <= / b) by (rewrite <- Rinv_1; apply Rinv_le_contravar; lra). split.
  - apply LE; auto. rewrite C. apply Rle_trans with b; auto. assert (b * b <= 1 * 1) by (apply Rmult_le_compat; lra). replace (b ^ 3) with (b * (b * b)) by ring. rewrite <- (Rmult_1_r b) at 4. apply Rmult_le_compat_l; lra.
  - apply LE; auto. rewrite C. apply Rle_trans with (/ b); auto. set (d := / b) in *. assert (1 * 1 <= d * d) by (apply Rmult_le_compat; lra). replace (d ^ 3) with (d * (d * d)) by ring. rewrite <- (Rmult_1_r d) at 1. apply Rmult_le_compat_l; lra.
Qed.
Lemma rp_trans k k' x y z : rp k x y -> rp k' y z -> rp (k + k') x z.
Proof.
  intros (q & Hq & ->) (r & Hr & ->). destruct (rp_mul k k' q 1 r 1) as (w & Hw & Ew); [exists q; split; auto; ring | exists r; split; auto; ring | ]. exists w. split; auto. replace (z * r * q) with (z * (q * r)) by ring. rewrite Ew. ring.
Qed.
Lemma rp_within x y : within (/ 2 ^ 52) x y -> rp 3 x y.
Proof.
  intros H. apply within_acc in H; [ | left; apply Rinv_0_lt_compat, pow_lt; lra]. destruct H as (d & Hd & ->). exists (1 + d). split; auto.
  assert (Eu : / 2 ^ 52 = 2 * u) by (unfold u; lra). rewrite Eu in Hd. apply Rabs_le_inv in Hd. unfold o. pose proof u_pos. pose proof u_small. assert (/ 10 ^ 15 <= / 10) by (apply Rinv_le_contravar; lra). assert (U2 : 0 <= u * u <= / 10 * u) by (split; [apply Rmult_le_pos; lra | apply Rmult_le_compat_r; lra]). assert (U3 : 0 <= u * u * u <= / 10 * (u * u)) by (split; [repeat apply Rmult_le_pos; lra | rewrite (Rmult_assoc u u u); apply Rmult_le_compat_r; lra]). assert (E3 : (1 - u) ^ 3 = 1 - 3 * u + 3 * (u * u) - u * u * u) by ring. split; [rewrite E3; lra | ].
  assert (P3 : 0 < (1 - u) ^ 3) by (apply pow_lt; lra). apply Rmult_le_reg_r with ((1 - u) ^ 3); auto. rewrite Rinv_l by lra. apply Rle_trans with ((1 + 2 * u) * (1 - u) ^ 3); [apply Rmult_le_compat_r; lra | ]. replace ((1 + 2 * u) * (1 - u) ^ 3) with (1 - u - 3 * (u * u) + 5 * (u * u * u) - 2 * (u * (u * u * u))) by ring. assert (0 <= u * (u * u * u)) by (apply Rmult_le_pos; lra). lra.
Qed.

(** sums of the absolute values of the terms of the other expansions *)
Definition qq2_code_scale (X : mixture) (T : R) (rho : nat -> R) : R := PI * (3 / 4) ^ 2 * Sum i < N X, Sum j < N X,
  rho i * rho j * Wi X T 5 i * Wi X T 5 j / Sg X (Nat.min i j) ^ 7 * Qu2 X i * Qu2 X j * J2_scale X T rho AQ BQ i j.
Definition J3dq_scale (X : mixture) (T : R) (rho : nat -> R) (i j k : nat) : R :=
  Sum l < length CDQ, (Rabs (lit2 CDQ l 0) + (m3 X i j k + 1) / m3 X i j k * Rabs (lit2 CDQ l 1)) * Eta X T rho ^ l.
Definition dq2_scale (X : mixture) (T : R) (rho : nat -> R) (kd kq : nat) : R := 9 / 4 * PI * Sum i < N X, Sum j < N X,
  rho i * rho j * Wi X T kd i * Wi X T kq j / Sij X i j ^ 5 * Mu2 X i * Qu2 X j * J2_scale X T rho ADQ BDQ i j.
Definition dq3_scale (X : mixture) (T : R) (rho : nat -> R) : R := PI ^ 2 * Sum i < N X, Sum j < N X, Sum k < N X,
  rho i * rho j * rho k * Wi X T 4 i * Wi X T 4 j * Wi X T 4 k / (Sij X i j * Sij X i k * Sij X j k) ^ 2
  * (Mu2 X i * Qu2 X j * Mu2 X k + Rlit ALPHA * Mu2 X i * Qu2 X j * Qu2 X k) * J3dq_scale X T rho i j k.

(** one term of the second and of the third order *)
Section Terms.
  Variable L : libm.
  Notation B := (BNum L).
  Lemma pair_term a b c d j s a' b' c' d' j' M s' kc kj ks : 0 <= a' -> 0 <= b' -> 0 <= c' -> 0 <= d' -> 0 < s' -> rp 1 a a' -> rp 1 b b' -> rp kc c c' -> rp kc d d' -> er1 kj j j' M -> rp ks s s' ->
    er1 (2 * kc + kj + ks + 7) (@ndiv B (@nmul B (@nmul B (@nmul B (@nmul B a b) c) d) j) s) (a' * b' * c' * d' * j' / s') (a' * b' * c' * d' * M / s').
  Proof.
    intros Pa Pb Pc Pd Ps Ra Rb Rc Rd Ej Rs. cbn [nmul ndiv BNum]. unfold Rdiv. replace (2 * kc + kj + ks + 7)%nat with (S (S (2 * kc + 5 + kj) + ks)) by lia. apply er1_rnd, er1_mul; [ | apply rp_er1; [left; apply Rinv_0_lt_compat; auto | apply rp_inv; auto]]. apply er1_rnd, er1_mul; [ | exact Ej].
    apply rp_er1; [repeat apply Rmult_le_pos; auto | ]. replace (2 * kc + 5)%nat with (S (S (3 + kc) + kc)) by lia. apply rp_rnd, rp_mul; auto. apply rp_rnd, rp_mul; auto. apply (rp_rnd 2), (rp_mul 1 1); auto.
  Qed.
  Lemma prod6_rp a b c d e f a' b' c' d' e' f' k1 k2 k3 : rp 1 a a' -> rp 1 b b' -> rp 1 c c' -> rp k1 d d' -> rp k2 e e' -> rp k3 f f' ->
    rp (k1 + k2 + k3 + 8) (@nmul B (@nmul B (@nmul B (@nmul B (@nmul B a b) c) d) e) f) (a' * b' * c' * d' * e' * f').
  Proof.
    intros. cbn [nmul BNum]. replace (k1 + k2 + k3 + 8)%nat with (S (S (S (5 + k1) + k2) + k3)) by lia. apply rp_rnd, rp_mul; auto. apply rp_rnd, rp_mul; auto. apply rp_rnd, rp_mul; auto. apply (rp_rnd 4), (rp_mul 3 1); auto. apply (rp_rnd 2), (rp_mul 1 1); auto.
  Qed.
  Lemma triple_term x s1 s2 s3 j x' s1' s2' s3' j' M kx ks kj : 0 <= x' -> 0 < s1' -> 0 < s2' -> 0 < s3' -> rp kx x x' -> rp ks s1 s1' -> rp ks s2 s2' -> rp ks s3 s3' -> er1 kj j j' M ->
    er1 (kx + 3 * ks + kj + 4) (@nmul B (@ndiv B x (@nmul B (@nmul B s1 s2) s3)) j) (x' / (s1' * s2' * s3') * j') (x' / (s1' * s2' * s3') * M).
  Proof.
    intros Px P1 P2 P3 Rx R1 R2 R3 Ej. assert (Ps : 0 < s1' * s2' * s3') by (repeat apply Rmult_lt_0_compat; auto). cbn [nmul ndiv BNum]. unfold Rdiv. replace (kx + 3 * ks + kj + 4)%nat with (S (S (kx + (3 * ks + 2)) + kj)) by lia. apply er1_rnd, er1_mul; auto.
    apply rp_er1; [apply Rmult_le_pos; auto; left; apply Rinv_0_lt_compat; auto | ]. apply rp_rnd, rp_mul; auto. apply rp_inv. replace (3 * ks + 2)%nat with (S (S (ks + ks) + ks)) by lia. apply rp_rnd, rp_mul; auto. apply rp_rnd, rp_mul; auto.
  Qed.
  Lemma diag_term x s j x' s' j' M kx ks kj : 0 <= x' -> 0 < s' -> rp kx x x' -> rp ks s s' -> er1 kj j j' M ->
    er1 (kx + ks + kj + 2) (@ndiv B (@nmul B x j) s) (x' * j' / s') (x' * M / s').
  Proof.
    intros Px Ps Rx Rs Ej. cbn [nmul ndiv BNum]. unfold Rdiv. replace (kx + ks + kj + 2)%nat with (S (S (kx + kj) + ks)) by lia. apply er1_rnd, er1_mul; [ | apply rp_er1; [left; apply Rinv_0_lt_compat; auto | apply rp_inv; auto]]. apply er1_rnd, er1_mul; auto. apply rp_er1; auto.
  Qed.
  Lemma times_lit k z x y M : (Z.abs z < 2 ^ 53)%Z -> (0 <= z)%Z -> er1 k x y M -> er1 (S k) (@nmul B x (@nlit B (z # 1))) (IZR z * y) (IZR z * M).
  Proof.
    intros Hz Pz E. rewrite (litZ L z) by auto. cbn [nmul BNum]. rewrite !(Rmult_comm (IZR z)). apply er1_rnd. replace k with (k + 0)%nat by lia. apply er1_mul; auto. apply er1_c. apply IZR_le; auto.
  Qed.
End Terms.

Lemma ixn_sorted l : Sorted.StronglySorted lt l -> forall i j, (i < j)%nat -> (j < length l)%nat -> (ixn l i < ixn l j)%nat.
Proof.
  induction 1 as [ | a l0 So IH F]; cbn [length]; intros i j Hij Hj; [lia | ]. destruct j as [ | j]; [lia | ]. destruct i as [ | i]; unfold ixn; cbn [nth].
  - rewrite List.Forall_forall in F. apply F. apply nth_In. lia.
  - apply IH; lia.
Qed.

Section Dips.
  Variable L : libm. Hypothesis HL : libm_ok L. Hypothesis HC : cbrt_ok L.
  Variables (prs : list (pure_record (BNum L))) (bin : list (list R)) (t v : R) (moles : list R).
  Let p := @from_records_raw (BNum L) prs bin.
  Hypothesis S : sphere_state p t v moles.
  Let X := polar_fluid p.
  Let n := length (p_m p).
  Let rho i := nth i moles 0 / v.
  Let st := @state_new (BNum L) t v moles.
  Let E := @packing (BNum L) p t (s_rho st).
  Let eta := Eta X t rho.
  Notation B := (BNum L).
  Let ke := (27 + n)%nat.
  Let pa i : (i < n)%nat -> 0 < M X i /\ 0 < Sg X i /\ 0 <= Ep X i /\ 0 <= rho i.
  Proof. exact (par L prs bin t v moles S i). Qed.
  Let Pt : 0 < t. Proof. exact (ss_t _ _ _ _ S). Qed.
  Lemma cap_pos i : (i < n)%nat -> 0 < mp X i.
  Proof. intros Hi. unfold mp, Rmin. destruct (pa i Hi) as [? _]. destruct (Rle_dec _ _); lra. Qed.
  Lemma cap_eq i : @mcap B p i = mp X i.
  Proof. unfold mcap. rewrite (litZ L 2) by (cbn; lia). rewrite (ixb L). reflexivity. Qed.
  Lemma ms2_rp i j : (i < n)%nat -> (j < n)%nat -> rp 2 (@mseg2 B p i j) (m2 X i j).
  Proof.
    intros Hi Hj. pose proof (cap_pos i Hi). pose proof (cap_pos j Hj). unfold mseg2, m2. rewrite !cap_eq. cbn [nsqrt nmul BNum]. apply (rp_rnd 1), rp_sqrt; [apply Rmult_le_pos; lra | ]. apply (rp_rnd 0), rp_refl.
  Qed.
  Lemma m2_pos i j : (i < n)%nat -> (j < n)%nat -> 0 < m2 X i j.
  Proof. intros Hi Hj. unfold m2. apply sqrt_lt_R0. apply Rmult_lt_0_compat; apply cap_pos; auto. Qed.
  Lemma ms3_rp i j k : (i < n)%nat -> (j < n)%nat -> (k < n)%nat -> rp 5 (@mseg3 B p i j k) (m3 X i j k).
  Proof.
    intros Hi Hj Hk. pose proof (cap_pos i Hi) as Pi. pose proof (cap_pos j Hj) as Pj. pose proof (cap_pos k Hk) as Pk. unfold mseg3, m3. rewrite !cap_eq. cbn [ncbrt nmul BNum]. set (a := mp X i) in *. set (b := mp X j) in *. set (c := mp X k) in *. assert (Pq : 0 < a * b * c) by (repeat apply Rmult_lt_0_compat; auto).
    assert (R2 : rp 2 (rnd (rnd (a * b) * c)) (a * b * c)). { apply (rp_rnd 1), (rp_mul 1 0); [apply (rp_rnd 0), rp_refl | apply rp_refl]. }
    set (x := rnd (rnd (a * b) * c)) in *. assert (Px : 0 < x). { destruct R2 as (q & [A _] & ->). destruct (o_pow 2). apply Rmult_lt_0_compat; lra. }
    apply (rp_trans 3 2 _ (Rcbrt x)); [exact (rp_within _ _ (HC x Px)) | apply rp_cbrt; auto].
  Qed.
  Lemma m3_pos i j k : (i < n)%nat -> (j < n)%nat -> (k < n)%nat -> 0 < m3 X i j k.
  Proof. intros Hi Hj Hk. unfold m3. apply Rcbrt_pos. repeat apply Rmult_lt_0_compat; apply cap_pos; auto. Qed.
  Lemma sgij_rp i j : (i < n)%nat -> (j < n)%nat -> rp 2 (@ix2 B (p_sigma_ij p) i j) (Sij X i j).
  Proof.
    intros Hi Hj. destruct (pa i Hi) as (_ & P1 & _). destruct (pa j Hj) as (_ & P2 & _). unfold p. cbn [from_records_raw p_sigma_ij]. rewrite (n_prs L prs bin). rewrite (ix2_mk2_b L prs bin) by auto. rewrite !(ixb L). assert (L5 : @nlit (BNum L) 0.5 = / 2).
    { cbn [nlit BNum]. replace (Rlit 0.5) with (IZR 1 * bpow radix2 (-1)) by (unfold Rlit; cbn; lra). rewrite rnd_id; [cbn; lra | ]. exact (f64_Z 1 (-1) ltac:(lia)). }
    rewrite L5. unfold Sij. cbn [nmul nadd BNum]. unfold Rdiv. rewrite (Rmult_comm _ (/ 2)). apply (rp_rnd 1), (rp_mul 0 1); [apply rp_refl | ]. apply (rp_rnd 0), rp_refl.
  Qed.
  Lemma s3ij_rp i j : (i < n)%nat -> (j < n)%nat -> rp 8 (@npowi B (@ix2 B (p_sigma_ij p) i j) 3) (Sij X i j ^ 3).
  Proof.
    intros Hi Hj. pose proof (sgij_rp i j Hi Hj) as G. set (x := @ix2 B _ i j) in *. cbn [npowi BNum]. change (bpowi x 3) with (rnd (x * rnd (x * x))). replace (Sij X i j ^ 3) with (Sij X i j * (Sij X i j * Sij X i j)) by ring. apply (rp_rnd 7), (rp_mul 2 5); auto. apply (rp_rnd 4), (rp_mul 2 2); auto.
  Qed.
  Lemma s_pos i j : (i < n)%nat -> (j < n)%nat -> 0 < Sij X i j.
  Proof. intros Hi Hj. destruct (pa i Hi) as (_ & P1 & _). destruct (pa j Hj) as (_ & P2 & _). unfold Sij. lra. Qed.
  Lemma eij_rp i j : (i < n)%nat -> (j < n)%nat -> rp 4 (@nmul B (@nrecip B t) (@ix2 B (p_e_k_ij p) i j)) (Eij0 X i j / t).
  Proof.
    intros Hi Hj. destruct (pa i Hi) as (_ & _ & P1 & _). destruct (pa j Hj) as (_ & _ & P2 & _). unfold p. cbn [from_records_raw p_e_k_ij]. rewrite (n_prs L prs bin). rewrite (ix2_mk2_b L prs bin) by auto. rewrite !(ixb L). cbn [nmul nrecip nsqrt BNum]. unfold Eij0, Rdiv. rewrite (Rmult_comm _ (/ t)). apply (rp_rnd 3), (rp_mul 1 2); [apply (rp_rnd 0), rp_refl | ].
    apply (rp_rnd 1), rp_sqrt; [apply Rmult_le_pos; auto | ]. apply (rp_rnd 0), rp_refl.
  Qed.
  Lemma eij_pos i j : 0 <= Eij0 X i j / t. Proof. apply Rmult_le_pos; [apply sqrt_pos | left; apply Rinv_0_lt_compat; auto]. Qed.
  Let E_rp : rp ke E eta. Proof. exact (eta_rp L HL prs bin t v moles S). Qed.
  Let eta_pos : 0 <= eta. Proof. left. exact (z_pos L p t v moles S 3). Qed.
  Let r_rp i : (i < n)%nat -> rp 1 (@ix B (s_rho st) i) (rho i). Proof. exact (rho_rp L p t v moles S i). Qed.
  Let r_pos i : (i < n)%nat -> 0 <= rho i. Proof. intros H. apply (pa i H). Qed.
  Let pi_er : er1 1 (rnd PI) PI PI. Proof. apply er1_rnd. apply er1_c. left. apply PI_RGT_0. Qed.
  Let m2_diag i : (i < n)%nat -> m2 X i i = mp X i. Proof. intros Hi. unfold m2. apply sqrt_square. left. apply cap_pos; auto. Qed.
  Let m3_diag i : (i < n)%nat -> m3 X i i i = mp X i. Proof. intros Hi. unfold m3. apply Rcbrt_of_cube. apply cap_pos; auto. Qed.
  (* perturbation integrals *)
  Lemma j2_er a b i j : (length a <= 5)%nat -> (i < n)%nat -> (j < n)%nat ->
    er1 (4 * ke + 33) (@pair_integral_ij B (@frac1 B (@mseg2 B p i j)) (@frac2 B (@mseg2 B p i j)) E a b (@nmul B (@nrecip B t) (@ix2 B (p_e_k_ij p) i j))) (J2 X t rho a b i j) (J2_scale X t rho a b i j).
  Proof. intros Ha Hi Hj. replace (4 * ke + 33)%nat with (4 * ke + 4 * 2 + 25)%nat by lia. apply (pair_er L eta E (m2 X i j) _ (Eij0 X i j / t) _ ke 2 eta_pos E_rp (m2_pos i j Hi Hj) (ms2_rp i j Hi Hj) (eij_pos i j) (eij_rp i j Hi Hj)); auto. Qed.
  Lemma j2d_er a b i : (length a <= 5)%nat -> (i < n)%nat ->
    er1 (4 * ke + 33) (@pair_integral_ij B (@frac1 B (@mcap B p i)) (@frac2 B (@mcap B p i)) E a b (@nmul B (@nrecip B t) (@ix2 B (p_e_k_ij p) i i))) (J2 X t rho a b i i) (J2_scale X t rho a b i i).
  Proof. intros Ha Hi. apply er1_k with (4 * ke + 4 * 0 + 25)%nat; [lia | ]. apply (pair_er L eta E (m2 X i i) _ (Eij0 X i i / t) _ ke 0 eta_pos E_rp (m2_pos i i Hi Hi)); auto; [rewrite cap_eq, m2_diag by auto; apply rp_refl | apply eij_pos | apply eij_rp; auto]. Qed.
  Lemma j3_er c i j k : (length c <= 5)%nat -> (i < n)%nat -> (j < n)%nat -> (k < n)%nat ->
    er1 (4 * ke + 37) (@triplet_integral_ijk B (@frac1 B (@mseg3 B p i j k)) (@frac2 B (@mseg3 B p i j k)) E c) (J3 X t rho c i j k) (J3_scale X t rho c i j k).
  Proof. intros Ha Hi Hj Hk. replace (4 * ke + 37)%nat with (4 * ke + 4 * 5 + 17)%nat by lia. apply (triplet_er L eta E (m3 X i j k) _ ke 5 eta_pos E_rp (m3_pos i j k Hi Hj Hk) (ms3_rp i j k Hi Hj Hk)); auto. Qed.
  Lemma j3d_er c i : (length c <= 5)%nat -> (i < n)%nat ->
    er1 (4 * ke + 37) (@triplet_integral_ijk B (@frac1 B (@mcap B p i)) (@frac2 B (@mcap B p i)) E c) (J3 X t rho c i i i) (J3_scale X t rho c i i i).
  Proof. intros Ha Hi. apply er1_k with (4 * ke + 4 * 0 + 17)%nat; [lia | ]. apply (triplet_er L eta E (m3 X i i i) _ ke 0 eta_pos E_rp (m3_pos i i i Hi Hi Hi)); auto. rewrite cap_eq, m3_diag by auto. apply rp_refl. Qed.

  (* dipoles *)
  Let l := p_dipole_comp p.
  Let d i := ixn l i.
  Let w i := Wi X t 3 i * Mu2 X i.
  Let mu i := @nmul B (@nmul B (@nmul B (@nrecip B t) (@npowi B (@ix2 B (p_sigma_ij p) i i) 3)) (@ix B (p_epsilon_k p) i)) (@ix B (p_mu2 p) i).
  Let len_mu2 : length (p_mu2 p) = n.
  Proof. unfold p at 1. cbn [from_records_raw p_mu2]. unfold mk1. rewrite map_length, seq_length, (n_prs L prs bin). reflexivity. Qed.
  Let q i := @nonzero B (@ix B (p_mu2 p) i).
  Let l_eq : l = filter q (seq 0 n).
  Proof. rewrite <- len_mu2. reflexivity. Qed.
  Let d_lt i : (i < length l)%nat -> (d i < n)%nat.
  Proof. intros Hi. assert (I : In (d i) l) by (apply nth_In; auto). rewrite l_eq in I. apply filter_In in I as [I _]. apply in_seq in I. lia. Qed.
  Let q_zero i : (i < n)%nat -> q i = false -> Mu2 X i = 0.
  Proof. intros Hi Q. exact (zero_rp L 11 _ _ (mu2_rp L prs bin i Hi i Hi) Q). Qed.
  Let mu_er i : (i < n)%nat -> rp 23 (mu i) (w i).
  Proof. intros Hi. exact (mu_rp L prs bin t v moles i Hi). Qed.
  Let w_nn i : (i < n)%nat -> 0 <= w i.
  Proof. intros Hi. exact (w_pos L prs bin t v moles S i Hi). Qed.
  Let g2 (J : nat -> nat -> R) a b := rho a * rho b * w a * w b * J a b / Sij X a b ^ 3.
  Let g3 (J : nat -> nat -> nat -> R) a b c := rho a * rho b * rho c * w a * w b * w c / (Sij X a b * Sij X a c * Sij X b c) * J a b c.
  Lemma dd2_tri J : (forall a b, J a b = J b a) ->
    rsum (@tri2 RNum (length l) (fun i => g2 J (d i) (d i)) (fun i j => 2 * g2 J (d i) (d j))) (fun x => x) = Sum i < N X, Sum j < N X, rho i * rho j * Wi X t 3 i * Wi X t 3 j / Sij X i j ^ 3 * Mu2 X i * Mu2 X j * J i j.
  Proof.
    intros Sy. rewrite (tri2_list l (g2 J)); auto.
    - rewrite l_eq. rewrite rsum_filter2.
      + change (N X) with n. apply Sum_ext. intros i _. apply Sum_ext. intros j _. unfold g2, w, Rdiv. ring.
      + intros a b Ha Hb Z. unfold g2, w. rewrite (q_zero a Ha Z). unfold Rdiv. ring.
      + intros a b Ha Hb Z. unfold g2, w. rewrite (q_zero b Hb Z). unfold Rdiv. ring.
    - intros a b. unfold g2. rewrite (Sy a b), (F_SpecPolar.Sij_sym X a b). unfold Rdiv. ring.
  Qed.
  Lemma dd3_tri J : (forall a b c, J a b c = J b a c) -> (forall a b c, J a b c = J a c b) ->
    rsum (@tri3 RNum (length l) (fun i => g3 J (d i) (d i) (d i)) (fun i j => 3 * g3 J (d i) (d i) (d j)) (fun i j => 3 * g3 J (d i) (d j) (d j)) (fun i j k => 6 * g3 J (d i) (d j) (d k))) (fun x => x)
    = Sum i < N X, Sum j < N X, Sum k < N X, rho i * rho j * rho k * Wi X t 3 i * Wi X t 3 j * Wi X t 3 k / (Sij X i j * Sij X i k * Sij X j k) * Mu2 X i * Mu2 X j * Mu2 X k * J i j k.
  Proof.
    intros S1 S2. rewrite (tri3_list l (g3 J)); auto.
    - rewrite l_eq. rewrite rsum_filter3.
      + change (N X) with n. apply Sum_ext. intros i _. apply Sum_ext. intros j _. apply Sum_ext. intros k _. unfold g3, w, Rdiv. ring.
      + intros a b c Ha Hb Hc Z. unfold g3, w. rewrite (q_zero a Ha Z). unfold Rdiv. ring.
      + intros a b c Ha Hb Hc Z. unfold g3, w. rewrite (q_zero b Hb Z). unfold Rdiv. ring.
      + intros a b c Ha Hb Hc Z. unfold g3, w. rewrite (q_zero c Hc Z). unfold Rdiv. ring.
    - intros a b c. unfold g3. rewrite (S1 a b c), (F_SpecPolar.Sij_sym X a b). unfold Rdiv. rewrite !Rinv_mult. ring.
    - intros a b c. unfold g3. rewrite (S2 a b c), (F_SpecPolar.Sij_sym X b c). unfold Rdiv. rewrite !Rinv_mult. ring.
  Qed.
  Lemma J2s_sym a b i j : J2_scale X t rho a b i j = J2_scale X t rho a b j i.
  Proof. unfold J2_scale. rewrite (F_SpecPolar.m2_sym X i j), (F_SpecPolar.Eij0_sym X i j). reflexivity. Qed.
  Lemma J3s_sym12 c i j k : J3_scale X t rho c i j k = J3_scale X t rho c j i k.
  Proof. unfold J3_scale. replace (m3 X i j k) with (m3 X j i k) by (unfold m3; f_equal; ring). reflexivity. Qed.
  Lemma J3s_sym23 c i j k : J3_scale X t rho c i j k = J3_scale X t rho c i k j.
  Proof. unfold J3_scale. replace (m3 X i j k) with (m3 X i k j) by (unfold m3; f_equal; ring). reflexivity. Qed.
  Lemma dips2_er : er1 (4 * ke + 97 + length l * length l) (@dipole_phi2 B p t (s_rho st) E) (dd2 X t rho) (dd2_scale X t rho).
  Proof.
    unfold dd2, dd2_scale. rewrite <- (dd2_tri (J2 X t rho AD BD)) by apply F_SpecPolar.J2_sym. rewrite <- (dd2_tri (J2_scale X t rho AD BD)) by apply J2s_sym.
    unfold dipole_phi2. cbv zeta. change (p_ndipole p) with (length l). fold l. fold d.
    match goal with |- context [nsubs (@tri2 B _ ?f ?h)] => set (fx := f); set (hx := h) end.
    assert (T : tl (4 * ke + 95) (@tri2 B (length l) fx hx) (@tri2 RNum (length l) (fun i => g2 (J2 X t rho AD BD) (d i) (d i)) (fun i j => 2 * g2 (J2 X t rho AD BD) (d i) (d j))) (@tri2 RNum (length l) (fun i => g2 (J2_scale X t rho AD BD) (d i) (d i)) (fun i j => 2 * g2 (J2_scale X t rho AD BD) (d i) (d j)))).
    { apply tri2_tl.
      - intros i Hi. pose proof (d_lt i Hi) as Da. unfold fx. set (a := d i) in *. pose proof (r_pos a Da). pose proof (w_nn a Da). apply er1_k with (2 * 23 + (4 * ke + 33) + 8 + 7)%nat; [lia | ]. unfold g2. apply (pair_term L _ _ _ _ _ _ (rho a) (rho a) (w a) (w a)); auto; [apply pow_lt, s_pos; auto | exact (mu_er a Da) | exact (mu_er a Da) | apply j2d_er; auto; cbn; lia | apply s3ij_rp; auto].
      - intros i j Hij Hj. assert (Hi : (i < length l)%nat) by lia. pose proof (d_lt i Hi) as Da. pose proof (d_lt j Hj) as Db. unfold hx. set (a := d i) in *. set (b := d j) in *. pose proof (r_pos a Da). pose proof (w_nn a Da). pose proof (r_pos b Db). pose proof (w_nn b Db). replace (4 * ke + 95)%nat with (Datatypes.S (2 * 23 + (4 * ke + 33) + 8 + 7)) by lia. apply (times_lit L _ 2); [cbn; lia | lia | ].
        unfold g2. apply (pair_term L _ _ _ _ _ _ (rho a) (rho b) (w a) (w b)); auto; [apply pow_lt, s_pos; auto | exact (mu_er a Da) | exact (mu_er b Db) | apply j2_er; auto; cbn; lia | apply s3ij_rp; auto]. }
    pose proof (tri2_length B (length l) fx hx) as HLn. set (lx := @tri2 B _ fx hx) in *. set (ly := @tri2 RNum _ _ _) in *. match type of T with tl _ _ _ ?z => set (ls := z) in * end. clearbody lx ly ls. 
    assert (T0 : er1 (4 * ke + 95) 0 0 0) by (apply er1_k with 0%nat; [lia | apply er1_c; lra]).
    pose proof (tl_subs L _ _ _ _ T (4 * ke + 95) 0 0 0 (le_n _) T0) as Q. unfold nsubs. rewrite (lit0 L). set (x := fold_left _ _ _) in *. clearbody x. cbn [nmul npi BNum].
    replace (- PI * rsum ly (fun x => x)) with ((0 - rsum ly (fun x => x)) * PI) by ring. replace (PI * rsum ls (fun x => x)) with ((0 + rsum ls (fun x => x)) * PI) by ring. apply er1_k with (Datatypes.S (4 * ke + 95 + length lx + 1)); [lia | ]. apply er1_rnd, er1_mul; [exact Q | exact pi_er].
  Qed.
  Lemma dips3_er : er1 (4 * ke + 131 + length l * (length l * length l)) (@dipole_phi3 B p t (s_rho st) E) (dd3 X t rho) (dd3_scale X t rho).
  Proof.
    unfold dd3, dd3_scale. rewrite <- (dd3_tri (J3 X t rho CD)) by (apply F_SpecPolar.J3_sym12 || apply F_SpecPolar.J3_sym23). rewrite <- (dd3_tri (J3_scale X t rho CD)) by (apply J3s_sym12 || apply J3s_sym23).
    unfold dipole_phi3. cbv zeta. change (p_ndipole p) with (length l). fold l. fold d.
    match goal with |- context [nsubs (@tri3 B _ ?f ?f1 ?f2 ?f3)] => set (fx := f); set (h1 := f1); set (h2 := f2); set (h3 := f3) end.
    assert (PP : forall a b c, (a < n)%nat -> (b < n)%nat -> (c < n)%nat -> 0 <= rho a * rho b * rho c * w a * w b * w c).
    { intros a b c A Bb C. pose proof (r_pos a A). pose proof (r_pos b Bb). pose proof (r_pos c C). pose proof (w_nn a A). pose proof (w_nn b Bb). pose proof (w_nn c C). clear - H H0 H1 H2 H3 H4. clearbody rho w. repeat apply Rmult_le_pos; auto. }
    assert (OFF : forall z a b c, (0 <= z)%Z -> (Z.abs z < 2 ^ 53)%Z -> (a < n)%nat -> (b < n)%nat -> (c < n)%nat -> er1 (4 * ke + 125)
      (@nmul B (@nmul B (@ndiv B (@nmul B (@nmul B (@nmul B (@nmul B (@nmul B (@ix B (s_rho st) a) (@ix B (s_rho st) b)) (@ix B (s_rho st) c)) (mu a)) (mu b)) (mu c)) (@nmul B (@nmul B (@ix2 B (p_sigma_ij p) a b) (@ix2 B (p_sigma_ij p) a c)) (@ix2 B (p_sigma_ij p) b c)))
         (@triplet_integral_ijk B (@frac1 B (@mseg3 B p a b c)) (@frac2 B (@mseg3 B p a b c)) E CD)) (@nlit B (z # 1)))
      (IZR z * g3 (J3 X t rho CD) a b c) (IZR z * g3 (J3_scale X t rho CD) a b c)).
    { intros z a b c Hz Hz' A Bb C. replace (4 * ke + 125)%nat with (Datatypes.S (77 + 3 * 2 + (4 * ke + 37) + 4)) by lia. apply times_lit; auto. unfold g3. apply triple_term; auto using s_pos, sgij_rp; [ | apply j3_er; auto; cbn; lia]. exact (prod6_rp L _ _ _ _ _ _ _ _ _ _ _ _ 23 23 23 (r_rp a A) (r_rp b Bb) (r_rp c C) (mu_er a A) (mu_er b Bb) (mu_er c C)). }
    assert (T : tl (4 * ke + 125) (@tri3 B (length l) fx h1 h2 h3)
      (@tri3 RNum (length l) (fun i => g3 (J3 X t rho CD) (d i) (d i) (d i)) (fun i j => 3 * g3 (J3 X t rho CD) (d i) (d i) (d j)) (fun i j => 3 * g3 (J3 X t rho CD) (d i) (d j) (d j)) (fun i j k => 6 * g3 (J3 X t rho CD) (d i) (d j) (d k)))
      (@tri3 RNum (length l) (fun i => g3 (J3_scale X t rho CD) (d i) (d i) (d i)) (fun i j => 3 * g3 (J3_scale X t rho CD) (d i) (d i) (d j)) (fun i j => 3 * g3 (J3_scale X t rho CD) (d i) (d j) (d j)) (fun i j k => 6 * g3 (J3_scale X t rho CD) (d i) (d j) (d k)))).
    { apply tri3_tl.
      - intros i Hi. pose proof (d_lt i Hi) as A. unfold fx. set (a := d i) in *. apply er1_k with (77 + 8 + (4 * ke + 37) + 2)%nat; [lia | ].
        assert (EG : forall J, g3 J a a a = rho a * rho a * rho a * w a * w a * w a * J a a a / Sij X a a ^ 3) by (intros J; unfold g3; replace (Sij X a a * Sij X a a * Sij X a a) with (Sij X a a ^ 3) by ring; unfold Rdiv; ring). rewrite !EG. apply diag_term; auto; [apply pow_lt, s_pos; auto | | apply s3ij_rp; auto | apply j3d_er; auto; cbn; lia].
        exact (prod6_rp L _ _ _ _ _ _ _ _ _ _ _ _ 23 23 23 (r_rp a A) (r_rp a A) (r_rp a A) (mu_er a A) (mu_er a A) (mu_er a A)).
      - intros i j Hi Hj. exact (OFF 3%Z (d i) (d i) (d j) ltac:(lia) ltac:(cbn; lia) (d_lt i Hi) (d_lt i Hi) (d_lt j Hj)).
      - intros i j Hi Hj. exact (OFF 3%Z (d i) (d j) (d j) ltac:(lia) ltac:(cbn; lia) (d_lt i Hi) (d_lt j Hj) (d_lt j Hj)).
      - intros i j k Hi Hj Hk. exact (OFF 6%Z (d i) (d j) (d k) ltac:(lia) ltac:(cbn; lia) (d_lt i Hi) (d_lt j Hj) (d_lt k Hk)). }
    pose proof (tri3_length B (length l) fx h1 h2 h3) as HLn. set (lx := @tri3 B _ fx h1 h2 h3) in *. set (ly := @tri3 RNum _ _ _ _ _) in *. match type of T with tl _ _ _ ?z => set (ls := z) in * end. clearbody lx ly ls.
    assert (T0 : er1 (4 * ke + 125) 0 0 0) by (apply er1_k with 0%nat; [lia | apply er1_c; lra]).
    pose proof (tl_subs L _ _ _ _ T (4 * ke + 125) 0 0 0 (le_n _) T0) as Q. unfold nsubs. rewrite (lit0 L). set (x := fold_left _ _ _) in *. clearbody x. unfold pi_sq_43, frac_pi_3. rewrite (litZ L 4), (litZ L 3) by (cbn; lia). cbn [nmul ndiv npi BNum].
    rewrite al1, al2. apply er1_k with (Datatypes.S (4 * ke + 125 + length lx + 5)); [lia | ]. apply er1_rnd, er1_mul; [exact Q | ].
    apply er1_rnd. apply (er1_mul 2 _ _ _ 2); [apply er1_rnd; apply (er1_mul 0 _ _ _ 1); [apply er1_c; lra | exact pi_er] | ]. unfold Rdiv. apply er1_rnd. apply (er1_mul 1 _ _ _ 0); [exact pi_er | apply er1_c; lra].
  Qed.

  (* quadrupoles *)
  Let lq := p_quadpole_comp p.
  Let dq i := ixn lq i.
  Let wq i := Wi X t 5 i * Qu2 X i.
  Let qu i := @nmul B (@nmul B (@nmul B (@nrecip B t) (@npowi B (@ix B (p_sigma p) i) 5)) (@ix B (p_epsilon_k p) i)) (@ix B (p_q2 p) i).
  Let len_q2 : length (p_q2 p) = n.
  Proof. unfold p at 1. cbn [from_records_raw p_q2]. unfold mk1. rewrite map_length, seq_length, (n_prs L prs bin). reflexivity. Qed.
  Let qq i := @nonzero B (@ix B (p_q2 p) i).
  Let lq_eq : lq = filter qq (seq 0 n).
  Proof. rewrite <- len_q2. reflexivity. Qed.
  Let dq_lt i : (i < length lq)%nat -> (dq i < n)%nat.
  Proof. intros Hi. assert (I : In (dq i) lq) by (apply nth_In; auto). rewrite lq_eq in I. apply filter_In in I as [I _]. apply in_seq in I. lia. Qed.
  Let qq_zero i : (i < n)%nat -> qq i = false -> Qu2 X i = 0.
  Proof. intros Hi Q. exact (zero_rp L 13 _ _ (q2_rp L prs bin i Hi i Hi) Q). Qed.
  Let qu_er i : (i < n)%nat -> rp 21 (qu i) (wq i).
  Proof. intros Hi. exact (qu_rp L prs bin t v moles i Hi). Qed.
  Let wq_nn i : (i < n)%nat -> 0 <= wq i.
  Proof. intros Hi. exact (wq_pos L prs bin t v moles S i Hi). Qed.
  Let dq_sorted i j : (i < j)%nat -> (j < length lq)%nat -> (dq i < dq j)%nat.
  Proof.
    unfold dq. rewrite lq_eq. apply ixn_sorted. apply filter_sorted, seq_sorted.
  Qed.
  Let g2q (J : nat -> nat -> R) a b := rho a * rho b * wq a * wq b * J a b / Sg X (Nat.min a b) ^ 7.
  Let g3q (J : nat -> nat -> nat -> R) a b c := rho a * rho b * rho c * wq a * wq b * wq c / (Sij X a b ^ 3 * Sij X a c ^ 3 * Sij X b c ^ 3) * J a b c.
  Lemma qq2_tri J : (forall a b, J a b = J b a) ->
    rsum (@tri2 RNum (length lq) (fun i => g2q J (dq i) (dq i)) (fun i j => 2 * g2q J (dq i) (dq j))) (fun x => x) = Sum i < N X, Sum j < N X, rho i * rho j * Wi X t 5 i * Wi X t 5 j / Sg X (Nat.min i j) ^ 7 * Qu2 X i * Qu2 X j * J i j.
  Proof.
    intros Sy. rewrite (tri2_list lq (g2q J)); auto.
    - rewrite lq_eq. rewrite rsum_filter2.
      + change (N X) with n. apply Sum_ext. intros i _. apply Sum_ext. intros j _. unfold g2q, wq, Rdiv. ring.
      + intros a b Ha Hb Z. unfold g2q, wq. rewrite (qq_zero a Ha Z). unfold Rdiv. ring.
      + intros a b Ha Hb Z. unfold g2q, wq. rewrite (qq_zero b Hb Z). unfold Rdiv. ring.
    - intros a b. unfold g2q. rewrite (Sy a b), (Nat.min_comm a b). unfold Rdiv. ring.
  Qed.
  Lemma qq3_tri J : (forall a b c, J a b c = J b a c) -> (forall a b c, J a b c = J a c b) ->
    rsum (@tri3 RNum (length lq) (fun i => g3q J (dq i) (dq i) (dq i)) (fun i j => 3 * g3q J (dq i) (dq i) (dq j)) (fun i j => 3 * g3q J (dq i) (dq j) (dq j)) (fun i j k => 6 * g3q J (dq i) (dq j) (dq k))) (fun x => x)
    = Sum i < N X, Sum j < N X, Sum k < N X, rho i * rho j * rho k * Wi X t 5 i * Wi X t 5 j * Wi X t 5 k / (Sij X i j * Sij X i k * Sij X j k) ^ 3 * Qu2 X i * Qu2 X j * Qu2 X k * J i j k.
  Proof.
    intros S1 S2. rewrite (tri3_list lq (g3q J)); auto.
    - rewrite lq_eq. rewrite rsum_filter3.
      + change (N X) with n. apply Sum_ext. intros i _. apply Sum_ext. intros j _. apply Sum_ext. intros k _. unfold g3q, wq, Rdiv. rewrite !Rpow_mult_distr. ring.
      + intros a b c Ha Hb Hc Z. unfold g3q, wq. rewrite (qq_zero a Ha Z). unfold Rdiv. ring.
      + intros a b c Ha Hb Hc Z. unfold g3q, wq. rewrite (qq_zero b Hb Z). unfold Rdiv. ring.
      + intros a b c Ha Hb Hc Z. unfold g3q, wq. rewrite (qq_zero c Hc Z). unfold Rdiv. ring.
    - intros a b c. unfold g3q. rewrite (S1 a b c), (F_SpecPolar.Sij_sym X a b). unfold Rdiv. rewrite !Rinv_mult. ring.
    - intros a b c. unfold g3q. rewrite (S2 a b c), (F_SpecPolar.Sij_sym X b c). unfold Rdiv. rewrite !Rinv_mult. ring.
  Qed.
  Lemma s7_rp a : (a < n)%nat -> rp 20 (@npowi B (@ix2 B (p_sigma_ij p) a a) 7) (Sg X a ^ 7).
  Proof.
    intros Ha. rewrite <- (F_SpecPolar.Sij_diag X a). pose proof (sgij_rp a a Ha Ha) as G. set (x := @ix2 B _ a a) in *. set (s := Sij X a a) in *. clearbody x s. cbn [npowi BNum]. change (bpowi x 7) with (rnd (x * rnd (x * rnd (x * rnd (x * rnd (x * rnd (x * x))))))). replace (s ^ 7) with (s * (s * (s * (s * (s * (s * s)))))) by ring.
    apply (rp_rnd 19), (rp_mul 2 17); auto. apply (rp_rnd 16), (rp_mul 2 14); auto. apply (rp_rnd 13), (rp_mul 2 11); auto. apply (rp_rnd 10), (rp_mul 2 8); auto. apply (rp_rnd 7), (rp_mul 2 5); auto. apply (rp_rnd 4), (rp_mul 2 2); auto.
  Qed.
  Let lit_rp z : rp 1 (@nlit B z) (Rlit z). Proof. cbn [nlit BNum]. apply (rp_rnd 0), rp_refl. Qed.
  Let E9 : Rlit 0.5625 = 9 / 16. Proof. unfold Rlit. cbn. lra. Qed.
  Let g_pos i : (i < n)%nat -> 0 < Sg X i. Proof. intros H. apply (pa i H). Qed.
  Lemma quads2_er : er1 (4 * ke + 107 + length lq * length lq) (@quad_phi2 B p t (s_rho st) E) (F_SpecPolar.qq2_code X t rho) (qq2_code_scale X t rho).
  Proof.
    unfold F_SpecPolar.qq2_code, qq2_code_scale. rewrite <- (qq2_tri (J2 X t rho AQ BQ)) by apply F_SpecPolar.J2_sym. rewrite <- (qq2_tri (J2_scale X t rho AQ BQ)) by apply J2s_sym.
    unfold quad_phi2. cbv zeta. change (p_nquadpole p) with (length lq). fold lq. fold dq.
    match goal with |- context [nsubs (@tri2 B _ ?f ?h)] => set (fx := f); set (hx := h) end.
    assert (T : tl (4 * ke + 103) (@tri2 B (length lq) fx hx) (@tri2 RNum (length lq) (fun i => g2q (J2 X t rho AQ BQ) (dq i) (dq i)) (fun i j => 2 * g2q (J2 X t rho AQ BQ) (dq i) (dq j))) (@tri2 RNum (length lq) (fun i => g2q (J2_scale X t rho AQ BQ) (dq i) (dq i)) (fun i j => 2 * g2q (J2_scale X t rho AQ BQ) (dq i) (dq j)))).
    { apply tri2_tl.
      - intros i Hi. pose proof (dq_lt i Hi) as Da. unfold fx. set (a := dq i) in *. pose proof (r_pos a Da). pose proof (wq_nn a Da). apply er1_k with (2 * 21 + (4 * ke + 33) + 20 + 7)%nat; [lia | ]. unfold g2q. rewrite Nat.min_id. apply (pair_term L _ _ _ _ _ _ (rho a) (rho a) (wq a) (wq a)); auto; [apply pow_lt; auto | exact (qu_er a Da) | exact (qu_er a Da) | apply j2d_er; auto; cbn; lia | apply s7_rp; auto].
      - intros i j Hij Hj. assert (Hi : (i < length lq)%nat) by lia. pose proof (dq_sorted i j Hij Hj) as Hs. pose proof (dq_lt i Hi) as Da. pose proof (dq_lt j Hj) as Db. unfold hx. set (a := dq i) in *. set (b := dq j) in *. pose proof (r_pos a Da). pose proof (wq_nn a Da). pose proof (r_pos b Db). pose proof (wq_nn b Db). replace (4 * ke + 103)%nat with (Datatypes.S (2 * 21 + (4 * ke + 33) + 20 + 7)) by lia. apply (times_lit L _ 2); [cbn; lia | lia | ].
        unfold g2q. rewrite Nat.min_l by lia. apply (pair_term L _ _ _ _ _ _ (rho a) (rho b) (wq a) (wq b)); auto; [apply pow_lt; auto | exact (qu_er a Da) | exact (qu_er b Db) | apply j2_er; auto; cbn; lia | apply s7_rp; auto]. }
    pose proof (tri2_length B (length lq) fx hx) as HLn. set (lx := @tri2 B _ fx hx) in *. set (ly := @tri2 RNum _ _ _) in *. match type of T with tl _ _ _ ?z => set (ls := z) in * end. clearbody lx ly ls.
    assert (T0 : er1 (4 * ke + 103) 0 0 0) by (apply er1_k with 0%nat; [lia | apply er1_c; lra]).
    pose proof (tl_subs L _ _ _ _ T (4 * ke + 103) 0 0 0 (le_n _) T0) as Q. unfold nsubs. rewrite (lit0 L). set (x := fold_left _ _ _) in *. clearbody x. pose proof (lit_rp 0.5625) as R9. rewrite E9 in R9. set (li := @nlit B 0.5625) in *. clearbody li. cbn [nmul npi BNum].
    rewrite al3, al4. apply er1_k with (Datatypes.S (4 * ke + 103 + length lx + 3)); [lia | ]. apply er1_rnd, er1_mul; [exact Q | ]. apply er1_rnd. apply (er1_mul 1 _ _ _ 1); [exact pi_er | apply rp_er1; [lra | exact R9]].
  Qed.
  Lemma quads3_er : er1 (4 * ke + 143 + length lq * (length lq * length lq)) (@quad_phi3 B p t (s_rho st) E) (qq3 X t rho) (qq3_scale X t rho).
  Proof.
    unfold qq3, qq3_scale. rewrite <- (qq3_tri (J3 X t rho CQ)) by (apply F_SpecPolar.J3_sym12 || apply F_SpecPolar.J3_sym23). rewrite <- (qq3_tri (J3_scale X t rho CQ)) by (apply J3s_sym12 || apply J3s_sym23).
    unfold quad_phi3. cbv zeta. change (p_nquadpole p) with (length lq). fold lq. fold dq.
    match goal with |- context [nsum (@tri3 B _ ?f ?f1 ?f2 ?f3)] => set (fx := f); set (h1 := f1); set (h2 := f2); set (h3 := f3) end.
    assert (PP : forall a b c, (a < n)%nat -> (b < n)%nat -> (c < n)%nat -> 0 <= rho a * rho b * rho c * wq a * wq b * wq c).
    { intros a b c A Bb C. pose proof (r_pos a A). pose proof (r_pos b Bb). pose proof (r_pos c C). pose proof (wq_nn a A). pose proof (wq_nn b Bb). pose proof (wq_nn c C). clear - H H0 H1 H2 H3 H4. clearbody rho wq. repeat apply Rmult_le_pos; auto. }
    assert (P3 : forall a b, (a < n)%nat -> (b < n)%nat -> 0 < Sij X a b ^ 3) by (intros; apply pow_lt, s_pos; auto).
    assert (OFF : forall z a b c, (0 <= z)%Z -> (Z.abs z < 2 ^ 53)%Z -> (a < n)%nat -> (b < n)%nat -> (c < n)%nat -> er1 (4 * ke + 137)
      (@nmul B (@nmul B (@ndiv B (@nmul B (@nmul B (@nmul B (@nmul B (@nmul B (@ix B (s_rho st) a) (@ix B (s_rho st) b)) (@ix B (s_rho st) c)) (qu a)) (qu b)) (qu c)) (@nmul B (@nmul B (@npowi B (@ix2 B (p_sigma_ij p) a b) 3) (@npowi B (@ix2 B (p_sigma_ij p) a c) 3)) (@npowi B (@ix2 B (p_sigma_ij p) b c) 3)))
         (@triplet_integral_ijk B (@frac1 B (@mseg3 B p a b c)) (@frac2 B (@mseg3 B p a b c)) E CQ)) (@nlit B (z # 1)))
      (IZR z * g3q (J3 X t rho CQ) a b c) (IZR z * g3q (J3_scale X t rho CQ) a b c)).
    { intros z a b c Hz Hz' A Bb C. replace (4 * ke + 137)%nat with (Datatypes.S (71 + 3 * 8 + (4 * ke + 37) + 4)) by lia. apply times_lit; auto. unfold g3q. apply triple_term; auto using s3ij_rp; [ | apply j3_er; auto; cbn; lia]. exact (prod6_rp L _ _ _ _ _ _ _ _ _ _ _ _ 21 21 21 (r_rp a A) (r_rp b Bb) (r_rp c C) (qu_er a A) (qu_er b Bb) (qu_er c C)). }
    assert (T : tl (4 * ke + 137) (@tri3 B (length lq) fx h1 h2 h3)
      (@tri3 RNum (length lq) (fun i => g3q (J3 X t rho CQ) (dq i) (dq i) (dq i)) (fun i j => 3 * g3q (J3 X t rho CQ) (dq i) (dq i) (dq j)) (fun i j => 3 * g3q (J3 X t rho CQ) (dq i) (dq j) (dq j)) (fun i j k => 6 * g3q (J3 X t rho CQ) (dq i) (dq j) (dq k)))
      (@tri3 RNum (length lq) (fun i => g3q (J3_scale X t rho CQ) (dq i) (dq i) (dq i)) (fun i j => 3 * g3q (J3_scale X t rho CQ) (dq i) (dq i) (dq j)) (fun i j => 3 * g3q (J3_scale X t rho CQ) (dq i) (dq j) (dq j)) (fun i j k => 6 * g3q (J3_scale X t rho CQ) (dq i) (dq j) (dq k)))).
    { apply tri3_tl.
      - intros i Hi. pose proof (dq_lt i Hi) as A. unfold fx. set (a := dq i) in *. apply er1_k with (71 + 26 + (4 * ke + 37) + 2)%nat; [lia | ].
        assert (EG : forall J, g3q J a a a = rho a * rho a * rho a * wq a * wq a * wq a * J a a a / (Sij X a a ^ 3) ^ 3) by (intros J; unfold g3q; replace (Sij X a a ^ 3 * Sij X a a ^ 3 * Sij X a a ^ 3) with ((Sij X a a ^ 3) ^ 3) by ring; unfold Rdiv; ring). rewrite !EG. apply diag_term; auto; [apply pow_lt; auto | | | apply j3d_er; auto; cbn; lia].
        + exact (prod6_rp L _ _ _ _ _ _ _ _ _ _ _ _ 21 21 21 (r_rp a A) (r_rp a A) (r_rp a A) (qu_er a A) (qu_er a A) (qu_er a A)).
        + pose proof (s3ij_rp a a A A) as G. set (x := @npowi B _ 3) in *. clearbody x. cbn [npowi BNum]. change (bpowi x 3) with (rnd (x * rnd (x * x))). set (y := Sij X a a ^ 3) in *. clearbody y. replace (y ^ 3) with (y * (y * y)) by ring. apply (rp_rnd 25), (rp_mul 8 17); auto. apply (rp_rnd 16), (rp_mul 8 8); auto.
      - intros i j Hi Hj. exact (OFF 3%Z (dq i) (dq i) (dq j) ltac:(lia) ltac:(cbn; lia) (dq_lt i Hi) (dq_lt i Hi) (dq_lt j Hj)).
      - intros i j Hi Hj. exact (OFF 3%Z (dq i) (dq j) (dq j) ltac:(lia) ltac:(cbn; lia) (dq_lt i Hi) (dq_lt j Hj) (dq_lt j Hj)).
      - intros i j k Hi Hj Hk. exact (OFF 6%Z (dq i) (dq j) (dq k) ltac:(lia) ltac:(cbn; lia) (dq_lt i Hi) (dq_lt j Hj) (dq_lt k Hk)). }
    pose proof (tri3_length B (length lq) fx h1 h2 h3) as HLn. set (lx := @tri3 B _ fx h1 h2 h3) in *. set (ly := @tri3 RNum _ _ _ _ _) in *. match type of T with tl _ _ _ ?z => set (ls := z) in * end. clearbody lx ly ls.
    assert (T0 : er1 (4 * ke + 137) 0 0 0) by (apply er1_k with 0%nat; [lia | apply er1_c; lra]).
    pose proof (tl_adds L _ _ _ _ T (4 * ke + 137) 0 0 0 (le_n _) T0) as Q. unfold nsum. rewrite (lit0 L). set (x := fold_left _ _ _) in *. clearbody x. pose proof (lit_rp 0.5625) as R9. rewrite E9 in R9. set (li := @nlit B 0.5625) in *. clearbody li. cbn [nmul ndiv npi BNum].
    rewrite !al5. apply er1_k with (Datatypes.S (4 * ke + 137 + length lx + 5)); [lia | ]. apply er1_rnd, er1_mul; [exact Q | ].
    apply er1_rnd. apply (er1_mul 3 _ _ _ 1); [apply er1_rnd; apply (er1_mul 1 _ _ _ 1); exact pi_er | apply rp_er1; [lra | exact R9]].
  Qed.

  (* dipoles and quadrupoles *)
  Let s4_rp i : rp 3 (@npowi B (@ix B (p_sigma p) i) 4) (Sg X i ^ 4).
  Proof.
    rewrite (ixb L). change (nth i (p_sigma p) 0) with (Sg X i). set (s := Sg X i). clearbody s. cbn [npowi BNum]. change (bpowi s 4) with (rnd (s * rnd (s * rnd (s * s)))). replace (s ^ 4) with (s * (s * (s * s))) by ring.
    apply (rp_rnd 2), (rp_mul 0 2); [apply rp_refl | ]. apply (rp_rnd 1), (rp_mul 0 1); [apply rp_refl | ]. apply (rp_rnd 0), rp_refl.
  Qed.
  Let m4 i := @nmul B (@nmul B (@nmul B (@nrecip B t) (@npowi B (@ix B (p_sigma p) i) 4)) (@ix B (p_epsilon_k p) i)) (@ix B (p_mu2 p) i).
  Let q4 i := @nmul B (@nmul B (@nmul B (@nrecip B t) (@npowi B (@ix B (p_sigma p) i) 4)) (@ix B (p_epsilon_k p) i)) (@ix B (p_q2 p) i).
  Let x4_rp k i x y : rp k x y -> rp (k + 7) (@nmul B (@nmul B (@nmul B (@nrecip B t) (@npowi B (@ix B (p_sigma p) i) 4)) (@ix B (p_epsilon_k p) i)) x) (Wi X t 4 i * y).
  Proof.
    intros R. pose proof (s4_rp i) as R2. rewrite (ixb L (p_epsilon_k p)). set (z := @npowi B _ 4) in *. clearbody z. cbn [nmul nrecip BNum]. unfold Wi. replace (Ep X i / t * Sg X i ^ 4 * y) with (/ t * Sg X i ^ 4 * Ep X i * y) by (unfold Rdiv; ring). replace (k + 7)%nat with (Datatypes.S (6 + k)) by lia. apply rp_rnd, rp_mul; auto.
    apply (rp_rnd 5), (rp_mul 5 0); [ | apply rp_refl]. apply (rp_rnd 4), (rp_mul 1 3); [apply (rp_rnd 0), rp_refl | exact R2].
  Qed.
  Let m4_rp i : (i < n)%nat -> rp 18 (m4 i) (Wi X t 4 i * Mu2 X i). Proof. intros Hi. exact (x4_rp 11 i _ _ (mu2_rp L prs bin i Hi i Hi)). Qed.
  Let q4_rp i : (i < n)%nat -> rp 20 (q4 i) (Wi X t 4 i * Qu2 X i). Proof. intros Hi. exact (x4_rp 13 i _ _ (q2_rp L prs bin i Hi i Hi)). Qed.
  Let W_nn k i : (i < n)%nat -> 0 <= Wi X t k i.
  Proof. intros Hi. destruct (pa i Hi) as (_ & P1 & P2 & _). unfold Wi. apply Rmult_le_pos; [ | apply pow_le; lra]. apply Rmult_le_pos; [auto | left; apply Rinv_0_lt_compat; auto]. Qed.
  Let mu_nn i : (i < n)%nat -> 0 <= Mu2 X i. Proof. intros Hi. apply moment_nonneg; apply (pa i Hi). Qed.
  Let qu_nn i : (i < n)%nat -> 0 <= Qu2 X i. Proof. intros Hi. apply moment_nonneg; apply (pa i Hi). Qed.
  Let term_rp var a b : (a < n)%nat -> (b < n)%nat -> rp 41 (match var with DQ35 => @nmul B (@nmul B (@ndiv B (m4 a) (@ix B (p_sigma p) a)) (q4 b)) (@ix B (p_sigma p) b) | DQ44 => @nmul B (m4 a) (q4 b) end)
    (Wi X t (fst (F_SpecPolar.dq_exps var)) a * Mu2 X a * (Wi X t (snd (F_SpecPolar.dq_exps var)) b * Qu2 X b)).
  Proof.
    intros Ha Hb. pose proof (m4_rp a Ha) as R1. pose proof (q4_rp b Hb) as R2. pose proof (g_pos a Ha) as Pg. rewrite !(ixb L (p_sigma p)). change (nth a (p_sigma p) 0) with (Sg X a). change (nth b (p_sigma p) 0) with (Sg X b). set (x := m4 a) in *. set (y := q4 b) in *. clearbody x y. cbn [nmul ndiv BNum]. destruct var; cbn [fst snd F_SpecPolar.dq_exps].
    - replace (Wi X t 3 a * Mu2 X a * (Wi X t 5 b * Qu2 X b)) with (Wi X t 4 a * Mu2 X a * / Sg X a * (Wi X t 4 b * Qu2 X b) * Sg X b) by (unfold Wi; field; lra). unfold Rdiv. apply (rp_rnd 40), (rp_mul 40 0); [ | apply rp_refl]. apply (rp_rnd 39), (rp_mul 19 20); auto. apply (rp_rnd 18), (rp_mul 18 0); auto. apply rp_inv, rp_refl.
    - apply rp_weaken with 39%nat; [lia | ]. apply (rp_rnd 38), (rp_mul 18 20); auto.
  Qed.
  Let gdq2 kd kq (J : nat -> nat -> R) a b := rho a * rho b * (Wi X t kd a * Mu2 X a * (Wi X t kq b * Qu2 X b)) * / Sij X a b ^ 5 * J a b.
  Lemma dq2_flat kd kq J : rsum (flat_map (fun i => mk1 (length lq) (fun j => gdq2 kd kq J (d i) (dq j))) (seq 0 (length l))) (fun x => x)
    = Sum i < N X, Sum j < N X, rho i * rho j * Wi X t kd i * Wi X t kq j / Sij X i j ^ 5 * Mu2 X i * Qu2 X j * J i j.
  Proof.
    rewrite rsum_flat_map. unfold mk1. rewrite (Sum_ext (length l) _ (fun i => Sum j < length lq, gdq2 kd kq J (ixn l i) (ixn lq j))) by (intros i _; rewrite rsum_map; reflexivity).
    rewrite (rect2_list l lq _ (gdq2 kd kq J)) by auto. rewrite l_eq, lq_eq. rewrite rsum_filter2.
    - change (N X) with n. apply Sum_ext. intros i _. apply Sum_ext. intros j _. unfold gdq2, Rdiv. ring.
    - intros a b Ha Hb Z. unfold gdq2. rewrite (q_zero a Ha Z). ring.
    - intros a b Ha Hb Z. unfold gdq2. rewrite (qq_zero b Hb Z). ring.
  Qed.
  Lemma s5_rp a b : (a < n)%nat -> (b < n)%nat -> rp 14 (@npowi B (@ix2 B (p_sigma_ij p) a b) 5) (Sij X a b ^ 5).
  Proof.
    intros Ha Hb. pose proof (sgij_rp a b Ha Hb) as G. set (x := @ix2 B _ a b) in *. set (s := Sij X a b) in *. clearbody x s. cbn [npowi BNum]. change (bpowi x 5) with (rnd (x * rnd (x * rnd (x * rnd (x * x))))). replace (s ^ 5) with (s * (s * (s * (s * s)))) by ring.
    apply (rp_rnd 13), (rp_mul 2 11); auto. apply (rp_rnd 10), (rp_mul 2 8); auto. apply (rp_rnd 7), (rp_mul 2 5); auto. apply (rp_rnd 4), (rp_mul 2 2); auto.
  Qed.
  Lemma dqs2_er var : er1 (4 * ke + 98 + length l * length lq) (@dq_phi2 B p var t (s_rho st) E) (dq2 X t rho (fst (F_SpecPolar.dq_exps var)) (snd (F_SpecPolar.dq_exps var))) (dq2_scale X t rho (fst (F_SpecPolar.dq_exps var)) (snd (F_SpecPolar.dq_exps var))).
  Proof.
    set (kd := fst (F_SpecPolar.dq_exps var)). set (kq := snd (F_SpecPolar.dq_exps var)). unfold dq2, dq2_scale. rewrite <- (dq2_flat kd kq (J2 X t rho ADQ BDQ)), <- (dq2_flat kd kq (J2_scale X t rho ADQ BDQ)).
    unfold dq_phi2. cbv zeta. change (p_nquadpole p) with (length lq). change (p_ndipole p) with (length l). fold lq. fold l. fold dq. fold d.
    match goal with |- context [nsubs ?f] => set (lx := f) end.
    match goal with |- er1 _ _ (_ * rsum ?f _) (_ * rsum ?h _) => set (ly := f); set (ls := h) end.
    assert (T : tl (4 * ke + 94) lx ly ls).
    { unfold lx, ly, ls. apply tl_flat. intros i Hi. apply in_seq in Hi. unfold mk1. apply tl_map. intros j Hj. apply in_seq in Hj. pose proof (d_lt i ltac:(lia)) as A. pose proof (dq_lt j ltac:(lia)) as Bb. set (a := d i) in *. set (b := dq j) in *.
      pose proof (term_rp var a b A Bb) as Rt. pose proof (s5_rp a b A Bb) as R5. pose proof (j2_er ADQ BDQ a b ltac:(cbn; lia) A Bb) as EJ. pose proof (r_rp a A) as Ra. pose proof (r_rp b Bb) as Rb. fold kd kq in Rt. pose proof (r_pos a A). pose proof (r_pos b Bb). pose proof (W_nn kd a A). pose proof (W_nn kq b Bb). pose proof (mu_nn a A). pose proof (qu_nn b Bb). assert (Ps : 0 < Sij X a b ^ 5) by (apply pow_lt, s_pos; auto).
      set (x := match var with DQ35 => _ | DQ44 => _ end) in *. set (y := @npowi B _ 5) in *. set (z := @pair_integral_ij B _ _ _ _ _ _) in *. set (r1 := @ix B (s_rho st) a) in *. set (r2 := @ix B (s_rho st) b) in *. clearbody x y z r1 r2. unfold gdq2. cbn [nmul ndiv BNum]. unfold Rdiv.
      replace (4 * ke + 94)%nat with (Datatypes.S (60 + (4 * ke + 33))) by lia. apply er1_rnd, er1_mul; [ | exact EJ]. apply rp_er1.
      - clearbody rho. set (w1 := Wi X t kd a) in *. set (w2 := Wi X t kq b) in *. set (u1 := Mu2 X a) in *. set (u2 := Qu2 X b) in *. set (sg := Sij X a b) in *. clearbody w1 w2 u1 u2 sg. apply Rmult_le_pos; [ | left; apply Rinv_0_lt_compat; auto]. repeat apply Rmult_le_pos; auto.
      - apply (rp_rnd 59), (rp_mul 45 14); [ | apply rp_inv; auto]. apply (rp_rnd 44), (rp_mul 3 41); auto. apply (rp_rnd 2), (rp_mul 1 1); auto. }
    assert (HLn : (length lx <= length l * length lq)%nat). { unfold lx. rewrite <- (seq_length (length l) 0) at 2. apply flat_length. intros i _. unfold mk1. rewrite map_length, seq_length. lia. }
    clearbody lx ly ls. assert (T0 : er1 (4 * ke + 94) 0 0 0) by (apply er1_k with 0%nat; [lia | apply er1_c; lra]).
    pose proof (tl_subs L _ _ _ _ T (4 * ke + 94) 0 0 0 (le_n _) T0) as Q. unfold nsubs. rewrite (lit0 L). set (x := fold_left _ _ _) in *. clearbody x. pose proof (lit_rp 2.25) as R9. assert (E25 : Rlit 2.25 = 9 / 4) by (unfold Rlit; cbn; lra). rewrite E25 in R9. set (li := @nlit B 2.25) in *. clearbody li. cbn [nmul npi BNum].
    replace (- (9 / 4) * PI * rsum ly (fun x => x)) with ((0 - rsum ly (fun x => x)) * (PI * (9 / 4))) by ring. replace (9 / 4 * PI * rsum ls (fun x => x)) with ((0 + rsum ls (fun x => x)) * (PI * (9 / 4))) by ring.
    apply er1_k with (Datatypes.S (4 * ke + 94 + length lx + 3)); [lia | ]. apply er1_rnd, er1_mul; [exact Q | ]. apply er1_rnd. apply (er1_mul 1 _ _ _ 1); [exact pi_er | apply rp_er1; [lra | exact R9]].
  Qed.
  Lemma j3dq_er i j k : (i < n)%nat -> (j < n)%nat -> (k < n)%nat ->
    er1 (4 * ke + 24) (@triplet_integral_ijk_dq B (@frac1 B (@mseg3 B p i j k)) E CDQ) (J3dq X t rho i j k) (J3dq_scale X t rho i j k).
  Proof.
    intros Hi Hj Hk. pose proof (f1_er L (m3 X i j k) (@mseg3 B p i j k) 5 (m3_pos i j k Hi Hj Hk) (ms3_rp i j k Hi Hj Hk)) as F1. unfold triplet_integral_ijk_dq, J3dq, J3dq_scale. fold eta. set (f1 := @frac1 B _) in *. set (m := m3 X i j k) in *. clearbody f1 m.
    apply er1_k with (4 * ke + 19 + length CDQ)%nat; [cbn; lia | ]. apply (nsumi_er 1 one1 u_half). intros a Ha.
    rewrite !(Rmult_comm _ (eta ^ a)). pose proof (pow_er L eta E ke eta_pos E_rp a ltac:(cbn in Ha; lia)) as Pw. set (e := @etas B E a) in *. clearbody e.
    assert (C0 : forall b, er1 1 (@cst2 B CDQ a b) (lit2 CDQ a b) (Rabs (lit2 CDQ a b))) by (intros b; unfold cst2, lit2; cbn [nlit BNum]; apply er1_rnd; apply er_refl). pose proof (C0 0%nat) as C1. pose proof (C0 1%nat) as C2. set (c0 := @cst2 B CDQ a 0) in *. set (c1 := @cst2 B CDQ a 1) in *. clearbody c0 c1. cbn [nmul nadd BNum].
    replace (4 * ke + 19)%nat with (Datatypes.S (4 * ke + 3 + 15)) by lia. apply er1_rnd, er1_mul; auto. apply (er1_rnd 14), er1_add; [apply er1_k with 1%nat; [lia | exact C1] | ]. apply (er1_rnd 13). apply (er1_mul 12 _ _ _ 1); auto.
  Qed.
  Let G3 (J : nat -> nat -> nat -> R) a b c := rho a * rho b * rho c * Wi X t 4 a * Wi X t 4 b * Wi X t 4 c * / (Sij X a b * Sij X a c * Sij X b c) ^ 2 * J a b c.
  Let al := Rlit ALPHA.
  Let al_pos : 0 < al. Proof. unfold al, ALPHA, Rlit. apply Rdiv_lt_0_compat; apply IZR_lt; reflexivity. Qed.
  Let f3 J i j k := G3 J (d i) (dq j) (d k) * (Mu2 X (d i) * Qu2 X (dq j) * Mu2 X (d k)).
  Let h3 J i j k := G3 J (d i) (dq j) (dq k) * (al * Mu2 X (d i) * Qu2 X (dq j) * Qu2 X (dq k)).
  Lemma dq3_flat J : rsum (flat_map (fun i => flat_map (fun j => mk1 (length l) (f3 J i j) ++ mk1 (length lq) (h3 J i j)) (seq 0 (length lq))) (seq 0 (length l))) (fun x => x)
    = Sum i < N X, Sum j < N X, Sum k < N X, rho i * rho j * rho k * Wi X t 4 i * Wi X t 4 j * Wi X t 4 k / (Sij X i j * Sij X i k * Sij X j k) ^ 2 * (Mu2 X i * Qu2 X j * Mu2 X k + al * Mu2 X i * Qu2 X j * Qu2 X k) * J i j k.
  Proof.
    rewrite rsum_flat_map.
    rewrite (Sum_ext (length l) _ (fun i => Sum j < length lq,
      (fun a b => rsum l (fun c => G3 J a b c * (Mu2 X a * Qu2 X b * Mu2 X c)) + rsum lq (fun c => G3 J a b c * (al * Mu2 X a * Qu2 X b * Qu2 X c))) (ixn l i) (ixn lq j))).
    2: { intros i Hi. rewrite rsum_flat_map. apply Sum_ext; intros j Hj. rewrite rsum_app. unfold mk1. rewrite !rsum_map. rewrite (rsum_nth l 0%nat), (rsum_nth lq 0%nat). reflexivity. }
    rewrite (rect2_list l lq _ (fun a b => rsum l (fun c => G3 J a b c * (Mu2 X a * Qu2 X b * Mu2 X c)) + rsum lq (fun c => G3 J a b c * (al * Mu2 X a * Qu2 X b * Qu2 X c)))) by auto.
    rewrite (rsum_ext l _ (fun a => rsum lq (fun b => rsum l (fun c => G3 J a b c * (Mu2 X a * Qu2 X b * Mu2 X c))) + rsum lq (fun b => rsum lq (fun c => G3 J a b c * (al * Mu2 X a * Qu2 X b * Qu2 X c))))) by (intros; apply rsum_plus).
    rewrite rsum_plus. rewrite l_eq, lq_eq.
    rewrite rsum_filter3; [ | intros a b c A Bb C Z ..]. rewrite rsum_filter3; [ | intros a b c A Bb C Z ..].
    - rewrite <- rsum_plus. change (N X) with n. apply Sum_ext. intros i _. rewrite <- rsum_plus. apply Sum_ext. intros j _. rewrite <- rsum_plus. apply Sum_ext. intros k _. unfold G3, Rdiv. ring.
    - rewrite (q_zero a A Z). ring.
    - rewrite (qq_zero b Bb Z). ring.
    - rewrite (qq_zero c C Z). ring.
    - rewrite (q_zero a A Z). ring.
    - rewrite (qq_zero b Bb Z). ring.
    - rewrite (q_zero c C Z). ring.
  Qed.
  Let den_rp a b c : (a < n)%nat -> (b < n)%nat -> (c < n)%nat -> rp 17 (@npowi B (@nmul B (@nmul B (@ix2 B (p_sigma_ij p) a b) (@ix2 B (p_sigma_ij p) a c)) (@ix2 B (p_sigma_ij p) b c)) 2) ((Sij X a b * Sij X a c * Sij X b c) ^ 2).
  Proof.
    intros A Bb C. assert (R : rp 8 (@nmul B (@nmul B (@ix2 B (p_sigma_ij p) a b) (@ix2 B (p_sigma_ij p) a c)) (@ix2 B (p_sigma_ij p) b c)) (Sij X a b * Sij X a c * Sij X b c)).
    { pose proof (sgij_rp a b A Bb) as R1. pose proof (sgij_rp a c A C) as R2. pose proof (sgij_rp b c Bb C) as R3. cbn [nmul BNum]. apply (rp_rnd 7), (rp_mul 5 2); auto. apply (rp_rnd 4), (rp_mul 2 2); auto. }
    set (x := @nmul B _ _) in *. clearbody x. cbn [npowi BNum]. change (bpowi x 2) with (rnd (x * x)). set (y := Sij X a b * _ * _) in *. clearbody y. replace (y ^ 2) with (y * y) by ring. apply (rp_rnd 16), (rp_mul 8 8); auto.
  Qed.
  Lemma dqs3_er : er1 (4 * ke + 115 + length l * (length lq * (length l + length lq))) (@dq_phi3 B p t (s_rho st) E) (dq3 X t rho) (dq3_scale X t rho).
  Proof.
    unfold dq3, dq3_scale. fold al. rewrite <- (dq3_flat (J3dq X t rho)), <- (dq3_flat (J3dq_scale X t rho)).
    unfold dq_phi3. cbv zeta. change (p_nquadpole p) with (length lq). change (p_ndipole p) with (length l). fold lq. fold l. fold dq. fold d.
    match goal with |- context [nsum ?f] => set (lx := f) end.
    match goal with |- er1 _ _ (_ * rsum ?f _) (_ * rsum ?h _) => set (ly := f); set (ls := h) end.
    assert (C6 : forall a b c x1 x2 x3 y1 y2 y3 k1 k2 k3, (a < n)%nat -> (b < n)%nat -> (c < n)%nat -> 0 <= y1 -> 0 <= y2 -> 0 <= y3 -> (k1 <= 20)%nat -> (k2 <= 20)%nat -> (k3 <= 20)%nat -> (k1 + k2 + k3 <= 58)%nat -> rp k1 x1 (Wi X t 4 a * y1) -> rp k2 x2 (Wi X t 4 b * y2) -> rp k3 x3 (Wi X t 4 c * y3) ->
      let z := rho a * rho b * rho c * (Wi X t 4 a * y1) * (Wi X t 4 b * y2) * (Wi X t 4 c * y3) * / (Sij X a b * Sij X a c * Sij X b c) ^ 2 in
      0 <= z /\ rp 84 (@ndiv B (@nmul B (@nmul B (@nmul B (@nmul B (@nmul B (@ix B (s_rho st) a) (@ix B (s_rho st) b)) (@ix B (s_rho st) c)) x1) x2) x3) (@npowi B (@nmul B (@nmul B (@ix2 B (p_sigma_ij p) a b) (@ix2 B (p_sigma_ij p) a c)) (@ix2 B (p_sigma_ij p) b c)) 2)) z).
    { intros a b c x1 x2 x3 y1 y2 y3 k1 k2 k3 A Bb C P1 P2 P3 _ _ _ Hk R1 R2 R3 z. pose proof (den_rp a b c A Bb C) as Rd. pose proof (prod6_rp L _ _ _ _ _ _ _ _ _ _ _ _ k1 k2 k3 (r_rp a A) (r_rp b Bb) (r_rp c C) R1 R2 R3) as R6. split.
      - unfold z. pose proof (r_pos a A). pose proof (r_pos b Bb). pose proof (r_pos c C). pose proof (W_nn 4 a A). pose proof (W_nn 4 b Bb). pose proof (W_nn 4 c C). apply Rmult_le_pos; [ | left; apply Rinv_0_lt_compat, pow_lt; apply Rmult_lt_0_compat; [apply Rmult_lt_0_compat | ]; apply s_pos; auto]. clearbody rho. set (w1 := Wi X t 4 a) in *. set (w2 := Wi X t 4 b) in *. set (w3 := Wi X t 4 c) in *. clearbody w1 w2 w3. repeat apply Rmult_le_pos; auto.
      - unfold z. set (x := @nmul B _ x3) in *. set (y := @npowi B _ 2) in *. clearbody x y. cbn [ndiv BNum]. unfold Rdiv. apply (rp_rnd 83), (rp_mul 66 17); [ | apply rp_inv; auto]. eapply rp_weaken; [ | exact R6]. lia. }
    assert (T : tl (4 * ke + 111) lx ly ls).
    { unfold lx, ly, ls. apply tl_flat. intros i Hi. apply in_seq in Hi. apply tl_flat. intros j Hj. apply in_seq in Hj. pose proof (d_lt i ltac:(lia)) as A. pose proof (dq_lt j ltac:(lia)) as Bb. apply tl_app; unfold mk1; apply tl_map; intros k Hk; apply in_seq in Hk.
      - pose proof (d_lt k ltac:(lia)) as C. unfold f3, G3. set (a := d i) in *. set (b := dq j) in *. set (c := d k) in *. destruct (C6 a b c _ _ _ _ _ _ 18%nat 20%nat 18%nat A Bb C (mu_nn a A) (qu_nn b Bb) (mu_nn c C) ltac:(lia) ltac:(lia) ltac:(lia) ltac:(lia) (m4_rp a A) (q4_rp b Bb) (m4_rp c C)) as [Pz Rz]. pose proof (j3dq_er a b c A Bb C) as EJ. unfold m4, q4 in Rz. set (x := @ndiv B _ _) in *. set (y := @triplet_integral_ijk_dq B _ _ _) in *. clearbody x y. cbn [nmul BNum].
        set (zz := rho a * rho b * rho c * (Wi X t 4 a * Mu2 X a) * (Wi X t 4 b * Qu2 X b) * (Wi X t 4 c * Mu2 X c) * / (Sij X a b * Sij X a c * Sij X b c) ^ 2) in *.
        assert (EZ : forall J, rho a * rho b * rho c * Wi X t 4 a * Wi X t 4 b * Wi X t 4 c * / (Sij X a b * Sij X a c * Sij X b c) ^ 2 * J * (Mu2 X a * Qu2 X b * Mu2 X c) = zz * J) by (intros; unfold zz; ring). rewrite !EZ. clearbody zz.
        apply er1_k with (Datatypes.S (84 + (4 * ke + 24))); [lia | ]. apply er1_rnd, er1_mul; [apply rp_er1; auto | exact EJ].
      - pose proof (dq_lt k ltac:(lia)) as C. unfold h3, G3. set (a := d i) in *. set (b := dq j) in *. set (c := dq k) in *. destruct (C6 a b c _ _ _ _ _ _ 18%nat 20%nat 20%nat A Bb C (mu_nn a A) (qu_nn b Bb) (qu_nn c C) ltac:(lia) ltac:(lia) ltac:(lia) ltac:(lia) (m4_rp a A) (q4_rp b Bb) (q4_rp c C)) as [Pz Rz]. pose proof (j3dq_er a b c A Bb C) as EJ. unfold m4, q4 in Rz. set (x := @ndiv B _ _) in *. set (y := @triplet_integral_ijk_dq B _ _ _) in *. pose proof (lit_rp ALPHA) as Ra. fold al in Ra. set (li := @nlit B ALPHA) in *. clearbody x y li. cbn [nmul BNum].
        set (zz := rho a * rho b * rho c * (Wi X t 4 a * Mu2 X a) * (Wi X t 4 b * Qu2 X b) * (Wi X t 4 c * Qu2 X c) * / (Sij X a b * Sij X a c * Sij X b c) ^ 2) in *.
        assert (EZ : forall J, rho a * rho b * rho c * Wi X t 4 a * Wi X t 4 b * Wi X t 4 c * / (Sij X a b * Sij X a c * Sij X b c) ^ 2 * J * (al * Mu2 X a * Qu2 X b * Qu2 X c) = zz * al * J) by (intros; unfold zz; ring). rewrite !EZ. clearbody zz.
        replace (4 * ke + 111)%nat with (Datatypes.S (86 + (4 * ke + 24))) by lia. apply er1_rnd, er1_mul; [ | exact EJ]. apply rp_er1; [apply Rmult_le_pos; lra | ]. apply (rp_rnd 85), (rp_mul 84 1); auto. }
    assert (HLn : (length lx <= length l * (length lq * (length l + length lq)))%nat).
    { unfold lx. rewrite <- (seq_length (length l) 0) at 2. apply flat_length. intros i _. rewrite <- (seq_length (length lq) 0) at 2. apply flat_length. intros j _. rewrite app_length. unfold mk1. rewrite !map_length, !seq_length. lia. }
    clearbody lx ly ls. assert (T0 : er1 (4 * ke + 111) 0 0 0) by (apply er1_k with 0%nat; [lia | apply er1_c; lra]).
    pose proof (tl_adds L _ _ _ _ T (4 * ke + 111) 0 0 0 (le_n _) T0) as Q. unfold nsum. rewrite (lit0 L). set (x := fold_left _ _ _) in *. clearbody x. cbn [nmul npi BNum].
    replace (PI ^ 2 * rsum ly (fun x => x)) with ((0 + rsum ly (fun x => x)) * (PI * PI)) by ring. replace (PI ^ 2 * rsum ls (fun x => x)) with ((0 + rsum ls (fun x => x)) * (PI * PI)) by ring.
    apply er1_k with (Datatypes.S (4 * ke + 111 + length lx + 3)); [lia | ]. apply er1_rnd, er1_mul; [exact Q | ]. apply er1_rnd. apply (er1_mul 1 _ _ _ 1); exact pi_er.
  Qed.
End Dips.

(** roundings along the longest path: [n] components, [k] terms of third order, cancellation factor [c] *)
Definition mix_roundings (n k c : nat) : R := 8 * INR n + 2 * INR k + 507 + INR c * (4 * INR n + INR k + 252).
Lemma mix_final L n k K2 K3 v c x2 x3 y2 y3 s2 s3 : 0 < v -> (K2 <= 4 * (27 + n) + 143 + k)%nat -> (K3 <= 4 * (27 + n) + 143 + k)%nat ->
  er1 K2 x2 y2 s2 -> er1 K3 x3 y3 s3 -> y2 <> y3 -> s2 + s3 <= INR c * Rabs (y2 - y3) -> mix_roundings n k c ^ 2 <= 2 ^ 51 ->
  Rabs (@pade (BNum L) x2 x3 v - v * pade2 y2 y3) <= mix_roundings n k c / 2 ^ 53 * (v * (s2 ^ 2 / Rabs (y2 - y3))).
Proof.
  intros Pv H2 H3 E2 E3 Ne Hc Hn. set (K := (4 * (27 + n) + 143 + k)%nat) in *. apply (er1_k _ K) in E2; auto. apply (er1_k _ K) in E3; auto.
  assert (EK : INR K = 4 * INR n + INR k + 251) by (unfold K; rewrite !plus_INR, mult_INR, plus_INR; replace (INR 4) with 4 by (cbn; lra); replace (INR 27) with 27 by (cbn; lra); replace (INR 143) with 143 by (rewrite INR_IZR_INZ; reflexivity); ring).
  replace (mix_roundings n k c) with (2 * INR K + 5 + INR c * (INR K + 1)) in * by (unfold mix_roundings; rewrite EK; ring). apply pade_final with s3; auto.
Qed.

(** The dipole contribution of a mixture with any number of dipolar components, computed with f64, deviates from
    the published one by at most [mix_roundings] units of roundoff of the size of the Pade approximant without
    cancellation. *)
Theorem C52_dipole_mixture L (prs : list (pure_record (BNum L))) bin t v moles c : let p := @from_records_raw (BNum L) prs bin in let X := polar_fluid p in
  libm_ok L -> cbrt_ok L -> sphere_state p t v moles -> (forall a, In a (p_dipole_comp p) -> 0 < Ep X a) ->
  let d := length (p_dipole_comp p) in let terms := (d * (d * d))%nat in
  let rho := fun i => nth i moles 0 / v in let y2 := dd2 X t rho in let y3 := dd3 X t rho in let s2 := dd2_scale X t rho in
  y2 <> y3 -> s2 + dd3_scale X t rho <= INR c * Rabs (y2 - y3) -> mix_roundings (length prs) terms c ^ 2 <= 2 ^ 51 ->
  Rabs (@a_dipole (BNum L) p (@state_new (BNum L) t v moles) - v * f_dd X t rho) <= mix_roundings (length prs) terms c / 2 ^ 53 * (v * (s2 ^ 2 / Rabs (y2 - y3))).
Proof.
  intros p X HL HC S _ d terms rho y2 y3 s2 Ne Hc Hn. pose proof (n_prs L prs bin) as En. fold p in En.
  eapply (mix_final L (length prs) terms _ _ v c _ _ y2 y3 s2 (dd3_scale X t rho)); [exact (ss_v _ _ _ _ S) | | | exact (dips2_er L HL prs bin t v moles S) | exact (dips3_er L HL HC prs bin t v moles S) | exact Ne | exact Hc | exact Hn]; fold p; rewrite En; unfold terms, d.
  - destruct (length (p_dipole_comp p)) as [ | k]; [lia | ]. assert (Datatypes.S k * Datatypes.S k <= Datatypes.S k * (Datatypes.S k * Datatypes.S k))%nat by (apply Nat.mul_le_mono_l; lia). lia.
  - lia.
Qed.
(** The quadrupole contribution of a mixture with any number of quadrupolar components against the exact value of
    the expression of the code, whose second order has the diameter of the component with the smaller index. *)
Theorem C52_quadrupole_mixture L (prs : list (pure_record (BNum L))) bin t v moles c : let p := @from_records_raw (BNum L) prs bin in let X := polar_fluid p in
  libm_ok L -> cbrt_ok L -> sphere_state p t v moles -> (forall a, In a (p_quadpole_comp p) -> 0 < Ep X a) ->
  let d := length (p_quadpole_comp p) in let terms := (d * (d * d))%nat in
  let rho := fun i => nth i moles 0 / v in let y2 := F_SpecPolar.qq2_code X t rho in let y3 := qq3 X t rho in let s2 := qq2_code_scale X t rho in
  y2 <> y3 -> s2 + qq3_scale X t rho <= INR c * Rabs (y2 - y3) -> mix_roundings (length prs) terms c ^ 2 <= 2 ^ 51 ->
  Rabs (@a_quadrupole (BNum L) p (@state_new (BNum L) t v moles) - v * pade2 y2 y3) <= mix_roundings (length prs) terms c / 2 ^ 53 * (v * (s2 ^ 2 / Rabs (y2 - y3))).
Proof.
  intros p X HL HC S _ d terms rho y2 y3 s2 Ne Hc Hn. pose proof (n_prs L prs bin) as En. fold p in En.
  eapply (mix_final L (length prs) terms _ _ v c _ _ y2 y3 s2 (qq3_scale X t rho)); [exact (ss_v _ _ _ _ S) | | | exact (quads2_er L HL prs bin t v moles S) | exact (quads3_er L HL HC prs bin t v moles S) | exact Ne | exact Hc | exact Hn]; fold p; rewrite En; unfold terms, d.
  - destruct (length (p_quadpole_comp p)) as [ | k]; [lia | ]. assert (Datatypes.S k * Datatypes.S k <= Datatypes.S k * (Datatypes.S k * Datatypes.S k))%nat by (apply Nat.mul_le_mono_l; lia). lia.
  - lia.
Qed.
(** the exponents of the diameters in the two variants of the dipole-quadrupole contribution *)
Definition dq_powers (var : dq_variant) : nat * nat := match var with DQ35 => (3, 5)%nat | DQ44 => (4, 4)%nat end.
(** the dipole-quadrupole contribution of a mixture, both variants *)
Theorem C52_dipole_quadrupole L (prs : list (pure_record (BNum L))) bin t v moles var c : let p := @from_records_raw (BNum L) prs bin in let X := polar_fluid p in
  libm_ok L -> cbrt_ok L -> sphere_state p t v moles -> (forall a, In a (p_dipole_comp p) \/ In a (p_quadpole_comp p) -> 0 < Ep X a) ->
  let d := length (p_dipole_comp p) in let q := length (p_quadpole_comp p) in let terms := (d * (q * (d + q)))%nat in let (kd, kq) := dq_powers var in
  let rho := fun i => nth i moles 0 / v in let y2 := dq2 X t rho kd kq in let y3 := dq3 X t rho in let s2 := dq2_scale X t rho kd kq in
  y2 <> y3 -> s2 + dq3_scale X t rho <= INR c * Rabs (y2 - y3) -> mix_roundings (length prs) terms c ^ 2 <= 2 ^ 51 ->
  Rabs (@a_dq (BNum L) p var (@state_new (BNum L) t v moles) - v * f_dq X t rho kd kq) <= mix_roundings (length prs) terms c / 2 ^ 53 * (v * (s2 ^ 2 / Rabs (y2 - y3))).
Proof.
  intros p X HL HC S _ d q terms. assert (EV : dq_powers var = (fst (F_SpecPolar.dq_exps var), snd (F_SpecPolar.dq_exps var))) by (destruct var; reflexivity). rewrite EV. intros rho y2 y3 s2 Ne Hc Hn. pose proof (n_prs L prs bin) as En. fold p in En.
  eapply (mix_final L (length prs) terms _ _ v c _ _ y2 y3 s2 (dq3_scale X t rho)); [exact (ss_v _ _ _ _ S) | | | exact (dqs2_er L HL prs bin t v moles S var) | exact (dqs3_er L HL HC prs bin t v moles S) | exact Ne | exact Hc | exact Hn]; fold p; rewrite En; unfold terms, d, q.
  - destruct (length (p_dipole_comp p)) as [ | k]; [lia | ]. assert (length (p_quadpole_comp p) <= length (p_quadpole_comp p) * (Datatypes.S k + length (p_quadpole_comp p)))%nat. { destruct (length (p_quadpole_comp p)) as [ | j]; [lia | ]. rewrite <- (Nat.mul_1_r (Datatypes.S j)) at 1. apply Nat.mul_le_mono_l. lia. }
    assert (Datatypes.S k * length (p_quadpole_comp p) <= Datatypes.S k * (length (p_quadpole_comp p) * (Datatypes.S k + length (p_quadpole_comp p))))%nat by (apply Nat.mul_le_mono_l; auto). lia.
  - lia.
Qed.

(** two dipolar and quadrupolar spheres at 300 K with a packing fraction of about 0.2: six digits are correct *)
Definition round_libm : libm :=
  mkLibm (fun x => rnd (exp x)) (fun x => rnd (exp x - 1)) (fun x => rnd (ln x)) (fun x => rnd (ln (1 + x))) (fun x => rnd (Rcbrt x)) (fun x => rnd (sin x)) (fun x _ => x).
Lemma round_libm_ok : libm_ok round_libm /\ cbrt_ok round_libm.
Proof.
  assert (H : forall x, within (/ 2 ^ 52) (rnd x) x). { intros x. apply acc_within. destruct (rnd_err x) as (d & H & E). exists d. split; auto. pose proof u_pos. replace (/ 2 ^ 52) with (2 * u) by (unfold u; lra). lra. }
  split; [ | intros x _; apply H]. repeat split; intros; apply H.
Qed.
Definition b_two L mu q : pure_record (BNum L) :=
  @mkPure (BNum L) (mkIdent None None None None None None) 16 (@mkRec (BNum L) 1 3.5 150 (Some mu) (Some q) None None None None None None None) None.
Example C52_polar_mixture_case : let L := round_libm in let prs := [b_two L 1 2; b_two L 2 1] in let p := @from_records_raw (BNum L) prs [[0; 0]; [0; 0]] in let st := @state_new (BNum L) 300 1000 [5; 5] in
  let X := polar_fluid p in let rho := fun i => nth i [5; 5] 0 / 1000 in
  sphere_state p 300 1000 [5; 5] /\ p_dipole_comp p = [0%nat; 1%nat] /\ p_quadpole_comp p = [0%nat; 1%nat] /\
  Rabs (@a_dipole (BNum L) p st - 1000 * f_dd X 300 rho) <= / 10 ^ 6 * Rabs (1000 * f_dd X 300 rho) /\
  Rabs (@a_quadrupole (BNum L) p st - 1000 * pade2 (F_SpecPolar.qq2_code X 300 rho) (qq3 X 300 rho)) <= / 10 ^ 6 * Rabs (1000 * pade2 (F_SpecPolar.qq2_code X 300 rho) (qq3 X 300 rho)) /\
  Rabs (@a_dq (BNum L) p DQ35 st - 1000 * f_dq X 300 rho 3 5) <= / 10 ^ 6 * Rabs (1000 * f_dq X 300 rho 3 5).
Proof.
  intros L prs p st X rho. destruct round_libm_ok as [OK OC]. assert (S : sphere_state p 300 1000 [5; 5]).
  { constructor; try lra; try (cbn; auto; fail).
    - intros i Hi. cbn in Hi. destruct i as [ | [ | i]]; [ | | lia]; cbn; lra.
    - exists 0%nat. cbn. split; [lia | lra]. }
  assert (C2 : forall i, (i < 2)%nat -> i = 0%nat \/ i = 1%nat) by (intros; lia).
  assert (Em : forall i, (i < 2)%nat -> M X i = 1) by (intros i Hi; destruct (C2 i Hi) as [-> | ->]; reflexivity). assert (Es : forall i, (i < 2)%nat -> Sg X i = 3.5) by (intros i Hi; destruct (C2 i Hi) as [-> | ->]; reflexivity). assert (Ee : forall i, (i < 2)%nat -> Ep X i = 150) by (intros i Hi; destruct (C2 i Hi) as [-> | ->]; reflexivity).
  set (k := Rlit 1e-19 / Rlit 1.380649e-23). assert (Hk : 7242 <= k <= 7243) by (unfold k; change (Rlit 1e-19) with (1 / 10000000000000000000); change (Rlit 1.380649e-23) with (1380649 / 100000000000000000000000000000); split; interval).
  assert (Emu0 : Mu2 X 0 = 1 / 6431.25 * k). { change (Mu2 X 0) with (1 ^ 2 / (1 * 3.5 ^ 3 * 150) * k). f_equal. lra. }
  assert (Emu1 : Mu2 X 1 = 4 / 6431.25 * k). { change (Mu2 X 1) with (2 ^ 2 / (1 * 3.5 ^ 3 * 150) * k). f_equal. lra. }
  assert (Equ0 : Qu2 X 0 = 4 / 78782.8125 * k). { change (Qu2 X 0) with (2 ^ 2 / (1 * 3.5 ^ 5 * 150) * k). f_equal. lra. }
  assert (Equ1 : Qu2 X 1 = 1 / 78782.8125 * k). { change (Qu2 X 1) with (1 ^ 2 / (1 * 3.5 ^ 5 * 150) * k). f_equal. lra. }
  assert (NZ : forall j x y, 0 < y -> rp j x y -> @nonzero (BNum L) x = true).
  { intros j x y Py R. destruct (@nonzero (BNum L) x) eqn:Z; auto. pose proof (zero_rp L j x y R Z). lra. }
  clearbody k.
  assert (L0 : (0 < 2)%nat) by lia. assert (L1 : (1 < 2)%nat) by lia.
  assert (Dd : p_dipole_comp p = [0%nat; 1%nat]).
  { change (p_dipole_comp p) with (filter (fun i => @nonzero (BNum L) (@ix (BNum L) (p_mu2 p) i)) [0%nat; 1%nat]). cbn [filter]. rewrite (NZ 11%nat _ (Mu2 X 0)); [ | rewrite Emu0; lra | exact (mu2_rp L prs [[0; 0]; [0; 0]] 0%nat L0 0%nat L0)]. rewrite (NZ 11%nat _ (Mu2 X 1)); [reflexivity | rewrite Emu1; lra | exact (mu2_rp L prs [[0; 0]; [0; 0]] 1%nat L1 1%nat L1)]. }
  assert (Dq : p_quadpole_comp p = [0%nat; 1%nat]).
  { change (p_quadpole_comp p) with (filter (fun i => @nonzero (BNum L) (@ix (BNum L) (p_q2 p) i)) [0%nat; 1%nat]). cbn [filter]. rewrite (NZ 13%nat _ (Qu2 X 0)); [ | rewrite Equ0; lra | exact (q2_rp L prs [[0; 0]; [0; 0]] 0%nat L0 0%nat L0)]. rewrite (NZ 13%nat _ (Qu2 X 1)); [reflexivity | rewrite Equ1; lra | exact (q2_rp L prs [[0; 0]; [0; 0]] 1%nat L1 1%nat L1)]. }
  split; [exact S | split; [exact Dd | split; [exact Dq | ]]].
  assert (ER : 0.15 <= Eta X 300 rho <= 0.25).
  { unfold Eta, Zeta, Di. change (N X) with 2%nat. cbn [seq rsum]. rewrite !Em, !Es, !Ee by auto. unfold rho. cbn [nth]. split; interval. }
  assert (R0 : forall i, (i < 2)%nat -> rho i = 0.005) by (intros i Hi; destruct (C2 i Hi) as [-> | ->]; unfold rho; cbn [nth]; lra).
  assert (Ep1 : forall i, (i < 2)%nat -> mp X i = 1) by (intros i Hi; unfold mp; rewrite Em, Rmin_left by (auto; lra); auto).
  assert (E2 : forall i j, (i < 2)%nat -> (j < 2)%nat -> m2 X i j = 1) by (intros i j Hi Hj; unfold m2; rewrite !Ep1 by auto; apply sqrt_square; lra).
  assert (E3 : forall i j k, (i < 2)%nat -> (j < 2)%nat -> (k < 2)%nat -> m3 X i j k = 1) by (intros i j h Hi Hj Hh; unfold m3; rewrite !Ep1 by auto; apply Rcbrt_of_cube; lra).
  assert (EE : forall i j, (i < 2)%nat -> (j < 2)%nat -> Eij0 X i j / 300 = 0.5) by (intros i j Hi Hj; unfold Eij0; rewrite !Ee, sqrt_square by (auto; lra); lra).
  assert (ES : forall i j, (i < 2)%nat -> (j < 2)%nat -> Sij X i j = 3.5) by (intros i j Hi Hj; unfold Sij; rewrite !Es by auto; lra).
  set (e := Eta X 300 rho) in *.
  assert (J2b : forall a b i j, (i < 2)%nat -> (j < 2)%nat -> J2 X 300 rho a b i j = Sum l < length a, (cm a l 1 + cm b l 1 * 0.5) * e ^ l) by (intros; unfold J2; rewrite E2, EE by auto; reflexivity).
  assert (J2s : forall a b i j, (i < 2)%nat -> (j < 2)%nat -> J2_scale X 300 rho a b i j = Sum l < length a, (cm_scale a l 1 + cm_scale b l 1 * 0.5) * e ^ l) by (intros; unfold J2_scale; rewrite E2, EE by auto; reflexivity).
  assert (J3b : forall c i j k, (i < 2)%nat -> (j < 2)%nat -> (k < 2)%nat -> J3 X 300 rho c i j k = Sum l < length c, cm c l 1 * e ^ l) by (intros; unfold J3; rewrite E3 by auto; reflexivity).
  assert (J3s : forall c i j k, (i < 2)%nat -> (j < 2)%nat -> (k < 2)%nat -> J3_scale X 300 rho c i j k = Sum l < length c, cm_scale c l 1 * e ^ l) by (intros; unfold J3_scale; rewrite E3 by auto; reflexivity).
  assert (Jqb : forall i j k, (i < 2)%nat -> (j < 2)%nat -> (k < 2)%nat -> J3dq X 300 rho i j k = Sum l < length CDQ, (lit2 CDQ l 0 + q1 1 * lit2 CDQ l 1) * e ^ l) by (intros; unfold J3dq; rewrite E3 by auto; reflexivity).
  assert (Jqs : forall i j k, (i < 2)%nat -> (j < 2)%nat -> (k < 2)%nat -> J3dq_scale X 300 rho i j k = Sum l < length CDQ, (Rabs (lit2 CDQ l 0) + (1 + 1) / 1 * Rabs (lit2 CDQ l 1)) * e ^ l) by (intros; unfold J3dq_scale; rewrite E3 by auto; reflexivity).
  assert (Gen : forall tm y2 y3 s2 s3 x, (tm <= 16)%nat -> y2 - y3 < 0 -> 0 <= s2 -> s2 + s3 <= 400 * - (y2 - y3) -> s2 <= 200 * - y2 ->
     (y2 <> y3 -> s2 + s3 <= INR 400 * Rabs (y2 - y3) -> mix_roundings 2 tm 400 ^ 2 <= 2 ^ 51 -> Rabs (x - 1000 * pade2 y2 y3) <= mix_roundings 2 tm 400 / 2 ^ 53 * (1000 * (s2 ^ 2 / Rabs (y2 - y3)))) ->
     Rabs (x - 1000 * pade2 y2 y3) <= / 10 ^ 6 * Rabs (1000 * pade2 y2 y3)).
  { intros tm y2 y3 s2 s3 x Ht Hy Hs Hc H2 Hb. assert (I4 : INR 400 = 400) by (rewrite INR_IZR_INZ; reflexivity). rewrite (Rabs_left (y2 - y3)) in Hb by lra. unfold mix_roundings in Hb. rewrite I4 in Hb.
    assert (T16 : 0 <= INR tm <= 16) by (split; [apply pos_INR | apply le_INR in Ht; replace 16 with (INR 16) by (rewrite INR_IZR_INZ; reflexivity); exact Ht]). set (T := INR tm) in *. clearbody T. replace (INR 2) with 2 in Hb by (cbn; lra). set (N := 8 * 2 + 2 * T + 507 + 400 * (4 * 2 + T + 252)) in *. assert (HN : 0 <= N <= 200000) by (unfold N; lra). clearbody N.
    assert (N2 : N ^ 2 <= 2 ^ 51). { apply Rle_trans with (200000 ^ 2); [apply pow_incr; lra | lra]. } specialize (Hb ltac:(lra) Hc N2).
    eapply Rle_trans; [exact Hb | ]. unfold pade2. replace (Rabs (1000 * (y2 ^ 2 / (y2 - y3)))) with (1000 * (y2 ^ 2 * / - (y2 - y3))).
    2: { symmetry. replace (1000 * (y2 ^ 2 / (y2 - y3))) with (- (1000 * (y2 ^ 2 * / - (y2 - y3)))) by (field; lra). rewrite Rabs_Ropp. apply Rabs_right, Rle_ge. apply Rmult_le_pos; [lra | ]. apply Rmult_le_pos; [apply pow2_ge_0 | left; apply Rinv_0_lt_compat; lra]. }
    unfold Rdiv at 2. set (i := / - (y2 - y3)). assert (Pi : 0 <= i) by (left; apply Rinv_0_lt_compat; lra). clearbody i.
    assert (Q : s2 ^ 2 <= 40000 * y2 ^ 2). { replace (40000 * y2 ^ 2) with ((200 * - y2) ^ 2) by ring. apply pow_incr. lra. }
    assert (Q2 : s2 ^ 2 * i <= 40000 * y2 ^ 2 * i) by (apply Rmult_le_compat_r; auto). assert (0 <= y2 ^ 2 * i) by (apply Rmult_le_pos; [apply pow2_ge_0 | auto]). assert (0 <= s2 ^ 2 * i) by (apply Rmult_le_pos; [apply pow2_ge_0 | auto]).
    set (z := y2 ^ 2 * i) in *. replace (40000 * y2 ^ 2 * i) with (40000 * z) in Q2 by (unfold z; ring). clearbody z. set (z2 := s2 ^ 2 * i) in *. clearbody z2. apply Rle_trans with (200000 / 2 ^ 53 * (1000 * z2)); [apply Rmult_le_compat_r; [lra | apply Rmult_le_compat_r; [left; apply Rinv_0_lt_compat; lra | lra]] | lra]. }
  assert (Pe : forall a, In a [0%nat; 1%nat] -> 0 < Ep X a) by (intros a [<- | [<- | []]]; rewrite Ee by auto; lra).
  pose proof (C52_dipole_mixture L prs [[0; 0]; [0; 0]] 300 1000 [5; 5] 400) as T1. pose proof (C52_quadrupole_mixture L prs [[0; 0]; [0; 0]] 300 1000 [5; 5] 400) as T2. pose proof (C52_dipole_quadrupole L prs [[0; 0]; [0; 0]] 300 1000 [5; 5] DQ35 400) as T3. cbv zeta in T1, T2, T3. cbn [dq_powers] in T3. fold p in T1, T2, T3. rewrite Dd in T1, T3. rewrite Dq in T2, T3.
  specialize (T1 OK OC S Pe). specialize (T2 OK OC S Pe). specialize (T3 OK OC S (fun a H => match H with or_introl H => Pe a H | or_intror H => Pe a H end)). 
  split; [ | split].
  - apply (Gen (2 * (2 * 2))%nat (dd2 X 300 rho) (dd3 X 300 rho) (dd2_scale X 300 rho) (dd3_scale X 300 rho)); [cbn; lia | | | | | exact T1].
    all: clear T1 T2 T3 Gen NZ Dd Dq S; unfold dd2, dd3, dd2_scale, dd3_scale, Wi; change (N X) with 2%nat; cbn [seq rsum]; rewrite ?J2b, ?J2s, ?J3b, ?J3s, ?ES, ?Emu0, ?Emu1, ?Ee, ?Es, ?R0 by auto; cbn [length AD BD CD seq rsum]; unfold cm, cm_scale, q1, q12, lit2, Rlit; cbn [nth AD BD CD Qnum Qden].
    + interval.
    + interval.
    + apply Rminus_le. interval with (i_bisect e, i_bisect k).
    + apply Rminus_le. interval with (i_bisect e, i_bisect k).
  - apply (Gen (2 * (2 * 2))%nat (F_SpecPolar.qq2_code X 300 rho) (qq3 X 300 rho) (qq2_code_scale X 300 rho) (qq3_scale X 300 rho)); [cbn; lia | | | | | exact T2].
    all: clear T1 T2 T3 Gen NZ Dd Dq S; unfold F_SpecPolar.qq2_code, qq3, qq2_code_scale, qq3_scale, Wi; change (N X) with 2%nat; cbn [seq rsum Nat.min]; rewrite ?J2b, ?J2s, ?J3b, ?J3s, ?ES, ?Equ0, ?Equ1, ?Ee, ?Es, ?R0 by auto; cbn [length AQ BQ CQ seq rsum]; unfold cm, cm_scale, q1, q12, lit2, Rlit; cbn [nth AQ BQ CQ Qnum Qden].
    + interval.
    + interval.
    + apply Rminus_le. interval with (i_bisect e, i_bisect k).
    + apply Rminus_le. interval with (i_bisect e, i_bisect k).
  - apply (Gen (2 * (2 * (2 + 2)))%nat (dq2 X 300 rho 3 5) (dq3 X 300 rho) (dq2_scale X 300 rho 3 5) (dq3_scale X 300 rho)); [cbn; lia | | | | | exact T3].
    all: clear T1 T2 T3 Gen NZ Dd Dq S; unfold dq2, dq3, dq2_scale, dq3_scale, Wi; change (N X) with 2%nat; cbn [seq rsum]; rewrite ?J2b, ?J2s, ?Jqb, ?Jqs, ?ES, ?Emu0, ?Emu1, ?Equ0, ?Equ1, ?Ee, ?Es, ?R0 by auto; cbn [length ADQ BDQ CDQ seq rsum]; unfold cm, cm_scale, q1, q12, lit2, Rlit, ALPHA; cbn [nth ADQ BDQ CDQ Qnum Qden].
    + interval.
    + interval.
    + apply Rminus_le. interval with (i_bisect e, i_bisect k).
    + apply Rminus_le. interval with (i_bisect e, i_bisect k).
Qed.
Print Assumptions C52_dipole_mixture.
Print Assumptions C52_quadrupole_mixture.
Print Assumptions C52_dipole_quadrupole.
