(** C52: rounding of the residual Helmholtz energy as a whole. *)
From Coq Require Import ZArith QArith Reals Lra Lia List Bool Arith.
From Flocq Require Import Core Relative.
From Verif Require Import Num RNum RSum Tables M_Params M_Eos Spec F_Params P_Basic BNum F_Round F_Round2 F_Round3 P_Round P_RoundD P_RoundH P_RoundC P_RoundA P_RoundP P_RoundX P_RoundY P_RoundZ.
Import ListNotations.
Local Open Scope R_scope.
Set Bullet Behavior "Strict Subproofs".
Notation length := List.length.

Lemma collect_all {A B} (f : A -> option B) (l : list A) (r : list B) : collect_opt (map f l) = Some r -> Forall2 (fun c a => f c = Some a) l r.
Proof.
  revert r. induction l as [ | c l IH]; cbn; intros r H; [injection H as <-; constructor | ].
  destruct (f c) as [a | ] eqn:E; [ | discriminate]. destruct (collect_opt (map f l)) as [w | ] eqn:E2; [ | discriminate]. injection H as <-. constructor; auto.
Qed.
Lemma forall2_len {A B} (P : A -> B -> Prop) l r : Forall2 P l r -> length l = length r.
Proof. induction 1; cbn; congruence. Qed.
Lemma pow_err k : INR k <= 10 ^ 6 -> (1 + u) ^ k - 1 <= (INR k + 1) * u.
Proof.
  intros Hk. pose proof u_pos as U0. pose proof u_small as U1.
  assert (P : forall j, INR j <= 10 ^ 6 -> (1 + u) ^ j <= 1 + INR j * u * (1 + / 10 ^ 8)).
  { induction j as [ | j IH]; intros Hj; [simpl; lra | ]. rewrite S_INR in *. pose proof (pos_INR j) as Pj. specialize (IH ltac:(lra)). simpl.
    apply Rle_trans with ((1 + u) * (1 + INR j * u * (1 + / 10 ^ 8))); [apply Rmult_le_compat_l; lra | ].
    assert (INR j * u <= 10 ^ 6 * / 10 ^ 15) by (apply Rmult_le_compat; lra). assert (u * (INR j * u) <= u * / 10 ^ 9) by (apply Rmult_le_compat_l; lra). lra. }
  specialize (P k Hk). pose proof (pos_INR k). assert (INR k * u <= 10 ^ 6 * u) by (apply Rmult_le_compat_r; lra). lra.
Qed.

(** The sum over the contributions: errors of the terms, and one rounding of the sum per term. *)
Theorem C52_sum L lu (e : eos (BNum L)) s A (exact bound : contribution (BNum L) -> R) :
  INR (length (e_contributions e)) <= 10 ^ 6 ->
  @residual (BNum L) lu e s = Some A ->
  (forall c a, In c (e_contributions e) -> @eval_contribution (BNum L) lu (e_params e) c s = Some a -> Rabs (a - exact c) <= bound c) ->
  Rabs (A - rsum (e_contributions e) exact)
  <= rsum (e_contributions e) bound + (INR (length (e_contributions e)) + 1) / 2 ^ 53 * rsum (e_contributions e) (fun c => Rabs (exact c) + bound c).
Proof.
  intros Hk H HB. pose proof u_pos as U0. unfold residual in H. destruct (collect_opt _) as [l | ] eqn:E; [ | discriminate]. injection H as <-. apply collect_all in E.
  rewrite nsum_bsum. pose proof (bsum_err l 0) as B. rewrite Rplus_0_l, Rabs_R0, Rplus_0_l in B.
  assert (Len : length (e_contributions e) = length l) by exact (forall2_len _ _ _ E). change (length (e_contributions e) = @length R l) in Len. rewrite <- Len in B.
  assert (K : Rabs (rsum l (fun x => x) - rsum (e_contributions e) exact) <= rsum (e_contributions e) bound /\ rsum l Rabs <= rsum (e_contributions e) (fun c => Rabs (exact c) + bound c)).
  { clear B Hk Len. revert HB E. generalize (e_contributions e) as cs. intros cs HB E. induction E as [ | c a cs l Ea E IH].
    - cbn. rewrite Rminus_0_r, Rabs_R0. lra.
    - destruct IH as [I1 I2]; [intros c' a' Hc; apply HB; right; exact Hc | ]. pose proof (HB c a (or_introl eq_refl) Ea) as Hb. cbn [rsum]. split.
      + replace (a + rsum l (fun x => x) - (exact c + rsum cs exact)) with ((a - exact c) + (rsum l (fun x => x) - rsum cs exact)) by ring. eapply Rle_trans; [apply Rabs_triang | ]. lra.
      + assert (Rabs a <= Rabs (exact c) + bound c); [ | lra]. replace a with ((a - exact c) + exact c) by ring. eapply Rle_trans; [apply Rabs_triang | ]. lra. }
  destruct K as [K1 K2]. set (sl := rsum l (fun x => x)) in *. set (k := length (e_contributions e)) in *.
  replace (bsum l 0 - rsum (e_contributions e) exact) with ((bsum l 0 - sl) + (sl - rsum (e_contributions e) exact)) by ring. eapply Rle_trans; [apply Rabs_triang | ].
  rewrite Rplus_comm. apply Rplus_le_compat; [exact K1 | ]. eapply Rle_trans; [exact B | ]. change ((INR k + 1) / 2 ^ 53) with ((INR k + 1) * u).
  assert (0 <= rsum l Rabs) by (apply rsum_nonneg; intros; apply Rabs_pos).
  apply Rmult_le_compat; auto; [ | apply pow_err; auto]. assert (1 <= (1 + u) ^ k) by (apply pow_R1_Rle; lra). lra.
Qed.

(** errors of the three contributions every fluid has *)
Definition err_hs (X : mixture) (t v : R) (rho : nat -> R) : R := 21 * (INR (N X) + 24) / (1 - Eta X t rho) / 2 ^ 53 * (v * f_hs X t rho).
Definition err_hc (X : mixture) (t v : R) (rho : nat -> R) : R :=
  11 * (INR (N X) + 24) / (1 - Eta X t rho) / 2 ^ 53 * (v * Sum i < N X, rho i * Rabs (M X i - 1) * (1 + ln (Gij X t rho i i))).
Definition err_disp (X : mixture) (t v : R) (rho : nat -> R) : R := (INR (N X) ^ 2 + 226 * INR (N X) + 5189) / (1 - Eta X t rho) / 2 ^ 53 * (v * disp_scale X t rho).

(** Residual Helmholtz energy of a mixture without polar and associating components. *)
Theorem C52_residual L lu (prs : list (pure_record (BNum L))) bin t v moles : let p := @from_records_raw (BNum L) prs bin in let X := fluid p in
  libm_ok L -> sphere_state p t v moles -> (forall i j, (i < length prs)%nat -> (j < length prs)%nat -> nth j (nth i bin nil) 0 <= 1) ->
  p_ndipole p = 0%nat -> p_nquadpole p = 0%nat -> p_nassoc p = 0%nat ->
  let n := INR (length prs) in let rho := fun i => nth i moles 0 / v in let eta := Eta X t rho in
  eta < 1 -> n + 24 <= 9 * 10 ^ 6 * (1 - eta) -> (n ^ 2 + 226 * n + 5189) ^ 2 <= 2 ^ 51 * (1 - eta) ->
  let b := err_hs X t v rho + err_hc X t v rho + err_disp X t v rho in
  exists A, @residual (BNum L) lu (@eos_new (BNum L) p) (@state_new (BNum L) t v moles) = Some A /\
    Rabs (A - v * (f_hs X t rho + f_hc X t rho + f_disp X t rho))
    <= b + 4 / 2 ^ 53 * (v * (Rabs (f_hs X t rho) + Rabs (f_hc X t rho) + Rabs (f_disp X t rho)) + b).
Proof.
  intros p X HL S Hb Nd Nq Na n rho eta He Hn1 Hn2 b.
  assert (Ln : length (p_m p) = length prs) by (cbn; rewrite !map_length; reflexivity).
  assert (Hv : 0 < v) by apply (ss_v _ _ _ _ S).
  pose proof (C52_hard_sphere L p t v moles HL S) as B1. pose proof (C52_hard_chain L p t v moles HL S) as B2. pose proof (C52_dispersion L prs bin t v moles HL S Hb) as B3. cbv zeta in B1, B2, B3. fold p in B3. fold rho in B1, B2, B3.
  rewrite Ln in B1, B2. fold n in B1, B2, B3.
  set (st := @state_new (BNum L) t v moles) in *.
  specialize (B1 He Hn1). specialize (B2 He Hn1). specialize (B3 He Hn2).
  assert (EC : e_contributions (@eos_new (BNum L) p) = [@CHardSphere (BNum L); @CHardChain (BNum L); @CDispersion (BNum L)]).
  { unfold eos_new, with_options. cbn [e_contributions]. rewrite Nd, Nq, Na. reflexivity. }
  set (exact := fun c : contribution (BNum L) => match c with CHardSphere => v * f_hs X t rho | CHardChain => v * f_hc X t rho | CDispersion => v * f_disp X t rho | _ => 0 end).
  set (bound := fun c : contribution (BNum L) => match c with CHardSphere => err_hs X t v rho | CHardChain => err_hc X t v rho | CDispersion => err_disp X t v rho | _ => 0 end).
  set (A := @nsum (BNum L) [@a_hs (BNum L) p st; @a_hc (BNum L) p st; @a_disp (BNum L) p st]). exists A.
  assert (RR : @residual (BNum L) lu (@eos_new (BNum L) p) st = Some A) by (unfold residual; rewrite EC; reflexivity).
  split; [exact RR | ].
  pose proof (C52_sum L lu (@eos_new (BNum L) p) st A exact bound) as T. rewrite EC in T. cbn [length INR rsum exact bound] in T.
  specialize (T ltac:(lra) RR). change R in (type of A). clearbody A. clear RR.
  assert (T' : Rabs (A - (v * f_hs X t rho + (v * f_hc X t rho + (v * f_disp X t rho + 0)))) <= err_hs X t v rho + (err_hc X t v rho + (err_disp X t v rho + 0)) + (1 + 1 + 1 + 1) / 2 ^ 53 * (Rabs (v * f_hs X t rho) + err_hs X t v rho + (Rabs (v * f_hc X t rho) + err_hc X t v rho + (Rabs (v * f_disp X t rho) + err_disp X t v rho + 0)))).
  { apply T. intros c a [<- | [<- | [<- | []]]] Ea; cbn [eval_contribution e_params eos_new with_options] in Ea; injection Ea as <-.
    - unfold exact, bound, err_hs. change (N X) with (length (p_m p)). rewrite Ln. exact B1.
    - eapply Rle_trans; [exact B2 | ]. right. unfold bound, err_hc. change (N X) with (length (p_m p)). rewrite Ln. fold n. f_equal. rewrite <- rsum_scal. apply Sum_ext. intros i Hi.
      change (M X i) with (nth i (p_m p) 0). change (Gij (spheres p) t rho i i) with (Gij X t rho i i). unfold rho at 2. field. lra.
    - unfold exact, bound, err_disp. change (N X) with (length (p_m p)). rewrite Ln. exact B3. }
  replace (A - v * (f_hs X t rho + f_hc X t rho + f_disp X t rho)) with (A - (v * f_hs X t rho + (v * f_hc X t rho + (v * f_disp X t rho + 0)))) by ring.
  rewrite !Rabs_mult, (Rabs_pos_eq v) in T' by lra. eapply Rle_trans; [exact T' | ]. right. unfold b. unfold Rdiv. ring.
Qed.

Lemma zero_comp L x : x = 0 -> @nonzero_comp (BNum L) [x] = [].
Proof. intros ->. unfold nonzero_comp. cbn [seq length filter]. rewrite ix_b. cbn [nth nltb nabs BNum]. rewrite Rabs_R0. rewrite (proj2 (Rltb_false _ _)); [reflexivity | ]. change (@n0 (BNum L)) with (rnd 0). rewrite rnd_0. lra. Qed.
Lemma methane_nonpolar : let p := @from_records_raw (BNum exact_libm) [b_methane exact_libm] [[0]] in p_ndipole p = 0%nat /\ p_nquadpole p = 0%nat /\ p_nassoc p = 0%nat.
Proof.
  intros p. change (@length nat (@nonzero_comp (BNum exact_libm) [@mu2_of (BNum exact_libm) (@n0 (BNum exact_libm)) 1 3.5 150]) = 0%nat /\
    @length nat (@nonzero_comp (BNum exact_libm) [@q2_of (BNum exact_libm) (@n0 (BNum exact_libm)) 1 3.5 150]) = 0%nat /\ @length nat (@nonzero_comp (BNum exact_libm) [@n0 (BNum exact_libm)]) = 0%nat).
  assert (Z : @n0 (BNum exact_libm) = 0) by (change (rnd 0 = 0); apply rnd_0). rewrite Z. rewrite !zero_comp; auto.
  - unfold q2_of. cbn [nmul ndiv BNum]. rewrite Rmult_0_l, rnd_0. unfold Rdiv at 1. rewrite Rmult_0_l, rnd_0, Rmult_0_l, rnd_0, Rmult_0_l, rnd_0. reflexivity.
  - unfold mu2_of. cbn [nmul ndiv BNum]. rewrite Rmult_0_l, rnd_0. unfold Rdiv at 1. rewrite Rmult_0_l, rnd_0, Rmult_0_l, rnd_0, Rmult_0_l, rnd_0. reflexivity.
Qed.
Example C52_residual_case lu : let L := exact_libm in let p := @from_records_raw (BNum L) [b_methane L] [[0]] in let X := fluid p in let rho := fun i => nth i [10] 0 / 1000 in
  exists A, @residual (BNum L) lu (@eos_new (BNum L) p) (@state_new (BNum L) 300 1000 [10]) = Some A /\
    Rabs (A - 1000 * (f_hs X 300 rho + f_hc X 300 rho + f_disp X 300 rho)) <= / 10 ^ 11 * (1000 * (f_hs X 300 rho + Rabs (f_disp X 300 rho) + disp_scale X 300 rho)) /\ 0 < f_hs X 300 rho /\ 0 <= disp_scale X 300 rho.
Proof.
  intros L p X rho. pose proof u_pos as U0. pose proof u_small as U1. assert (S : sphere_state p 300 1000 [10]).
  { constructor; try lra; try (cbn; auto; fail).
    - intros i Hi. cbn in Hi. destruct i as [ | i]; [ | lia]. cbn. lra.
    - exists 0%nat. cbn. split; [lia | lra]. }
  assert (ER : 0 <= Eta X 300 rho <= 0.5).
  { unfold Eta, Zeta, Di. cbn [X N M Sg Ep fluid p from_records_raw p_m p_sigma p_epsilon_k rsum seq length map nth b_methane]. unfold rho. cbn [nth].
    change (@r_m (BNum L) (pr_model (b_methane L))) with 1. change (@r_sigma (BNum L) (pr_model (b_methane L))) with 3.5. change (@r_epsilon_k (BNum L) (pr_model (b_methane L))) with 150.
    pose proof PI_RGT_0. pose proof PI_4. pose proof (exp_pos (-3 * 150 / 300)) as E0. assert (E1 : exp (-3 * 150 / 300) <= 1) by (rewrite <- exp_0; left; apply exp_increasing; lra).
    set (x := exp _) in *. clearbody x. set (dd := 3.5 * (1 - 12 / 100 * x)). assert (D : 0 <= dd <= 3.5) by (unfold dd; lra). clearbody dd.
    assert (D2 : 0 <= dd * dd <= 12.25) by (split; [apply Rmult_le_pos; lra | replace 12.25 with (3.5 * 3.5) by lra; apply Rmult_le_compat; lra]).
    assert (D3 : 0 <= dd * (dd * dd) <= 42.875) by (split; [apply Rmult_le_pos; lra | replace 42.875 with (3.5 * 12.25) by lra; apply Rmult_le_compat; lra]).
    replace (dd ^ 3) with (dd * (dd * dd)) by ring. set (c := dd * (dd * dd)) in *. clearbody c.
    assert (0 <= PI * c) by (apply Rmult_le_pos; lra). assert (PI * c <= 4 * 42.875) by (apply Rmult_le_compat; lra). split; lra. }
  assert (Hb : forall i j, (i < length [b_methane L])%nat -> (j < length [b_methane L])%nat -> nth j (nth i [[0]] nil) 0 <= 1) by (intros [ | i] [ | j] Hi Hj; cbn in *; try lra; lia).
  pose proof (C52_residual L lu [b_methane L] [[0]] 300 1000 [10] exact_libm_ok S Hb (proj1 methane_nonpolar) (proj1 (proj2 methane_nonpolar)) (proj2 (proj2 methane_nonpolar))) as T. cbv zeta in T. fold p in T. fold X in T. fold rho in T.
  pose proof (C52_dispersion L [b_methane L] [[0]] 300 1000 [10] exact_libm_ok S Hb) as B. cbv zeta in B. fold p in B. fold X in B. fold rho in B.
  change (INR (length [b_methane L])) with 1 in T, B. specialize (B ltac:(lra) ltac:(lra)). destruct (T ltac:(lra) ltac:(lra) ltac:(lra)) as (A & EA & TA). clear T. exists A. split; [exact EA | ].
  assert (P : 0 < f_hs X 300 rho) by (apply (f_hs_pos L p 300 1000 [10] S); fold rho; change (Eta X 300 rho < 1); lra).
  assert (C0 : f_hc X 300 rho = 0).
  { unfold f_hc. cbn [X N M fluid p from_records_raw p_m rsum seq length map nth b_methane]. change (@r_m (BNum L) (pr_model (b_methane L))) with 1. lra. }
  assert (C1 : err_hc X 300 1000 rho = 0).
  { unfold err_hc. cbn [X N M fluid p from_records_raw p_m rsum seq length map nth b_methane]. change (@r_m (BNum L) (pr_model (b_methane L))) with 1. replace (1 - 1) with 0 by lra. rewrite Rabs_R0. ring. }
  assert (I : / 1 <= / (1 - Eta X 300 rho) <= / 0.5) by (split; apply Rinv_le_contravar; lra). rewrite Rinv_1 in I.
  unfold err_hs, err_disp in TA. change (INR (N X)) with 1 in TA. rewrite C0, C1, Rabs_R0 in TA. rewrite C0. rewrite (Rabs_pos_eq (f_hs X 300 rho)) in TA by lra.
  set (i := / (1 - Eta X 300 rho)) in *. unfold Rdiv in TA, B. fold i in TA, B. set (a := f_hs X 300 rho) in *. set (ds := disp_scale X 300 rho) in *. set (fd := f_disp X 300 rho) in *.
  assert (D0 : 0 <= ds).
  { pose proof (Rle_trans _ _ _ (Rabs_pos _) B) as B'. apply (Rmult_le_reg_l ((1 ^ 2 + 226 * 1 + 5189) * i * / 2 ^ 53 * 1000)); [ | lra]. repeat apply Rmult_lt_0_compat; lra. }
  clear B EA. clearbody i a ds fd. split; [ | auto]. eapply Rle_trans; [exact TA | ]. pose proof (Rabs_pos fd) as F0.
  assert (Q1 : 21 * (1 + 24) * i * / 2 ^ 53 * (1000 * a) <= 1050 * / 2 ^ 53 * (1000 * a)) by (apply Rmult_le_compat_r; lra).
  assert (Q2 : (1 ^ 2 + 226 * 1 + 5189) * i * / 2 ^ 53 * (1000 * ds) <= 10832 * / 2 ^ 53 * (1000 * ds)) by (apply Rmult_le_compat_r; lra).
  set (q1 := 21 * (1 + 24) * i * / 2 ^ 53 * (1000 * a)) in *. set (q2 := (1 ^ 2 + 226 * 1 + 5189) * i * / 2 ^ 53 * (1000 * ds)) in *. clearbody q1 q2. lra.
Qed.

(** Residual Helmholtz energy of a mixture with one associating component with equal numbers of sites. *)
Theorem C52_residual_assoc L lu (prs : list (pure_record (BNum L))) bin t v moles s x : let p := @from_records_raw (BNum L) prs bin in let X := fluid p in
  libm_ok L -> sphere_state p t v moles -> (forall i j, (i < length prs)%nat -> (j < length prs)%nat -> nth j (nth i bin nil) 0 <= 1) ->
  p_ndipole p = 0%nat -> p_nquadpole p = 0%nat -> p_nassoc p = 1%nat ->
  let n := INR (length prs) in let rho := fun i => nth i moles 0 / v in let eta := Eta X t rho in
  eta < 1 -> n + 30 <= 9 * 10 ^ 6 * (1 - eta) -> (n ^ 2 + 226 * n + 5189) ^ 2 <= 2 ^ 51 * (1 - eta) ->
  let a := nth 0 (p_assoc_comp p) 0%nat in (a < length prs)%nat -> nth a (p_na p) 0 = s -> nth a (p_nb p) 0 = s -> 1 <= s <= 16 ->
  0 <= pair_energy p a a -> pair_energy p a a / t <= 10 ^ 12 ->
  let q := pair_strength X (pair_volume p) (pair_energy p) t rho a a * rho a * s in
  0 < q -> 0 < x -> x * (1 + q * x) = 1 -> 400 / 2 ^ 53 <= x ->
  let e := 2 * (strength_error (length prs) eta (pair_energy p a a / t) + 4 / 2 ^ 53) + (10 + 1.1 * Rmin (/ q) (2 ^ 26) + 6 / x) / 2 ^ 53 in
  let fa := rho a * (2 * s * (ln x - x / 2 + 1 / 2)) in
  let b := err_hs X t v rho + err_hc X t v rho + err_disp X t v rho + v * rho a * (2 * s * (1.6 * e + 9 / 2 ^ 53 * (Rabs (ln x) + 1.1))) in
  exists A, @residual (BNum L) lu (@eos_new (BNum L) p) (@state_new (BNum L) t v moles) = Some A /\
    Rabs (A - v * (f_hs X t rho + f_hc X t rho + f_disp X t rho + fa))
    <= b + 5 / 2 ^ 53 * (v * (Rabs (f_hs X t rho) + Rabs (f_hc X t rho) + Rabs (f_disp X t rho) + Rabs fa) + b).
Proof.
  intros p X HL S Hb Nd Nq Na n rho eta He Hn1 Hn2 a Ha Hna Hnb Hs Hpe Hpt q Hq Hx EX Hxs e fa b.
  assert (Ln : length (p_m p) = length prs) by (cbn; rewrite !map_length; reflexivity).
  assert (Hv : 0 < v) by apply (ss_v _ _ _ _ S).
  pose proof (C52_hard_sphere L p t v moles HL S) as B1. pose proof (C52_hard_chain L p t v moles HL S) as B2. pose proof (C52_dispersion L prs bin t v moles HL S Hb) as B3. cbv zeta in B1, B2, B3. fold p in B3. fold rho in B1, B2, B3.
  pose proof (C52_pure_contribution L p t v moles s x HL S) as B4. cbv zeta in B4. fold rho in B4. fold a in B4.
  rewrite Ln in B1, B2, B4. fold n in B1, B2, B3, B4.
  set (st := @state_new (BNum L) t v moles) in *.
  assert (Hn3 : n + 24 <= 9 * 10 ^ 6 * (1 - eta)) by lra.
  specialize (B1 He Hn3). specialize (B2 He Hn3). specialize (B3 He Hn2). specialize (B4 He Hn1 Ha Hna Hnb Hs Hpe Hpt Hq Hx EX Hxs).
  change (strength_error (length prs) (Eta (spheres p) t rho) (pair_energy p a a / t)) with (strength_error (length prs) eta (pair_energy p a a / t)) in B4.
  change (pair_strength (spheres p) (pair_volume p) (pair_energy p) t rho a a * rho a * s) with q in B4. fold e in B4.
  assert (Em : nth a moles 0 = v * rho a) by (unfold rho; field; lra). rewrite Em in B4.
  assert (EC : e_contributions (@eos_new (BNum L) p) = [@CHardSphere (BNum L); @CHardChain (BNum L); @CDispersion (BNum L); @CAssociation (BNum L)]).
  { unfold eos_new, with_options. cbn [e_contributions]. rewrite Nd, Nq, Na. reflexivity. }
  set (exact := fun c : contribution (BNum L) => match c with CHardSphere => v * f_hs X t rho | CHardChain => v * f_hc X t rho | CDispersion => v * f_disp X t rho | CAssociation => v * fa | _ => 0 end).
  set (b4 := v * rho a * (2 * s * (1.6 * e + 9 / 2 ^ 53 * (Rabs (ln x) + 1.1)))) in *.
  set (bound := fun c : contribution (BNum L) => match c with CHardSphere => err_hs X t v rho | CHardChain => err_hc X t v rho | CDispersion => err_disp X t v rho | CAssociation => b4 | _ => 0 end).
  set (A := @nsum (BNum L) [@a_hs (BNum L) p st; @a_hc (BNum L) p st; @a_disp (BNum L) p st; @a_assoc (BNum L) p st]). exists A.
  assert (RR : @residual (BNum L) lu (@eos_new (BNum L) p) st = Some A) by (unfold residual; rewrite EC; reflexivity).
  split; [exact RR | ].
  pose proof (C52_sum L lu (@eos_new (BNum L) p) st A exact bound) as T. rewrite EC in T. cbn [length INR rsum exact bound] in T.
  specialize (T ltac:(lra) RR). change R in (type of A). clearbody A. clear RR.
  assert (T' : Rabs (A - (v * f_hs X t rho + (v * f_hc X t rho + (v * f_disp X t rho + (v * fa + 0))))) <= err_hs X t v rho + (err_hc X t v rho + (err_disp X t v rho + (b4 + 0))) + (1 + 1 + 1 + 1 + 1) / 2 ^ 53 * (Rabs (v * f_hs X t rho) + err_hs X t v rho + (Rabs (v * f_hc X t rho) + err_hc X t v rho + (Rabs (v * f_disp X t rho) + err_disp X t v rho + (Rabs (v * fa) + b4 + 0))))).
  { apply T. intros c w [<- | [<- | [<- | [<- | []]]]] Ea; cbn [eval_contribution e_params eos_new with_options] in Ea; injection Ea as <-.
    - unfold exact, bound, err_hs. change (N X) with (length (p_m p)). rewrite Ln. exact B1.
    - eapply Rle_trans; [exact B2 | ]. right. unfold bound, err_hc. change (N X) with (length (p_m p)). rewrite Ln. fold n. f_equal. rewrite <- rsum_scal. apply Sum_ext. intros i Hi.
      change (M X i) with (nth i (p_m p) 0). change (Gij (spheres p) t rho i i) with (Gij X t rho i i). unfold rho at 2. field. lra.
    - unfold exact, bound, err_disp. change (N X) with (length (p_m p)). rewrite Ln. exact B3.
    - unfold exact, bound. replace (v * fa) with (v * rho a * (2 * s * (ln x - x / 2 + 1 / 2))) by (unfold fa; ring). exact B4. }
  replace (A - v * (f_hs X t rho + f_hc X t rho + f_disp X t rho + fa)) with (A - (v * f_hs X t rho + (v * f_hc X t rho + (v * f_disp X t rho + (v * fa + 0))))) by ring.
  rewrite !Rabs_mult, (Rabs_pos_eq v) in T' by lra. eapply Rle_trans; [exact T' | ]. right. unfold b. unfold Rdiv. ring.
Qed.

Lemma unbonded_exists q : 0 < q -> exists x, 0 < x /\ x * (1 + q * x) = 1 /\ / (1 + q) <= x.
Proof.
  intros Hq. set (x := (sqrt (1 + 4 * q) - 1) / (2 * q)). exists x.
  assert (HX : 0 < x /\ x * (1 + q * x) = 1).
  { destruct (root_bound q Hq) as [R1 _]. assert (RR : sqrt (1 + 4 * q) * sqrt (1 + 4 * q) = 1 + 4 * q) by (apply sqrt_sqrt; lra).
    set (r := sqrt _) in *. clearbody r. split; [unfold x; apply Rdiv_lt_0_compat; lra | ]. unfold x. field_simplify; [ | lra]. apply (Rmult_eq_reg_r (4 * q)); [ | lra]. field_simplify; [ | lra]. nra. }
  destruct HX as [X0 E]. clearbody x. split; auto. split; auto. assert (0 <= x * (q * x)) by (apply Rmult_le_pos; [ | apply Rmult_le_pos]; lra).
  apply (Rmult_le_reg_l (1 + q)); [lra | ]. rewrite Rinv_r by lra. assert (x <= 1) by lra. assert (q * x * x <= q * x * 1) by (apply Rmult_le_compat_l; [apply Rmult_le_pos; lra | auto]). lra.
Qed.
(** spheres with one site of each kind *)
Definition b_sticky : pure_record BE :=
  @mkPure BE (mkIdent None None None None None None) 16 (@mkRec BE 1 1 0 None None (Some 1) (Some (1 / 2)) (Some 1) (Some 1) None None None) None.
Example C52_residual_assoc_case lu : let p := @from_records_raw BE [b_sticky] [[0]] in let X := fluid p in let rho := fun i => nth i [1] 0 / 1 in
  exists q x A, q = pair_strength X (pair_volume p) (pair_energy p) 1 rho 0 0 /\ 0 < q /\ x * (1 + q * x) = 1 /\ 0 < x /\
    @residual BE lu (@eos_new BE p) (@state_new BE 1 1 [1]) = Some A /\
    Rabs (A - (f_hs X 1 rho + 2 * (ln x - x / 2 + 1 / 2))) <= / 10 ^ 6 * (1 + f_hs X 1 rho).
Proof.
  intros p X rho. pose proof u_pos as U0. pose proof u_small as U1.
  assert (F2 : rnd 2 = 2) by (apply rnd_id; exact (f64_int 2 ltac:(lia))).
  assert (Fh : rnd (Rlit 0.5) = 1 / 2) by exact (half_b exact_libm).
  assert (NZ : @nonzero_comp BE [1] = [0%nat]).
  { unfold nonzero_comp. cbn [seq length filter]. replace (@ix BE [1] 0) with 1 by (unfold BE; rewrite ix_b; reflexivity). cbn [nltb nabs BNum BE]. rewrite Rabs_R1. rewrite (proj2 (Rltb_true _ _)); [reflexivity | ]. change (rnd 0 < 1). rewrite rnd_0. lra. }
  assert (AC : p_assoc_comp p = [0%nat]) by exact NZ.
  assert (Kv : pair_volume p 0 0 = 1).
  { change ((if existsb (Nat.eqb 0) (@nonzero_comp BE [1]) && existsb (Nat.eqb 0) (@nonzero_comp BE [1])
      then rnd (rnd (sqrt (rnd (1 * 1))) * rnd (rnd (rnd 2 * rnd (sqrt (rnd (1 * 1)))) / rnd (1 + 1))) else rnd 0) = 1).
    rewrite NZ. cbn [existsb Nat.eqb orb andb]. rewrite Rmult_1_l, rnd_1, sqrt_1, rnd_1, F2, Rmult_1_r. replace (1 + 1) with 2 by lra. rewrite !F2. replace (2 / 2) with 1 by lra. rewrite rnd_1, Rmult_1_l. apply rnd_1. }
  assert (Ke : pair_energy p 0 0 = 1 / 2).
  { change ((if existsb (Nat.eqb 0) (@nonzero_comp BE [1]) && existsb (Nat.eqb 0) (@nonzero_comp BE [1])
      then rnd (rnd (Rlit 0.5) * rnd (1 / 2 + 1 / 2)) else rnd 0) = 1 / 2).
    rewrite NZ. cbn [existsb Nat.eqb orb andb]. replace (1 / 2 + 1 / 2) with 1 by lra. rewrite Fh, rnd_1, Rmult_1_r. rewrite <- Fh at 1. rewrite rnd_id by apply f64_rnd. exact Fh. }
  assert (S : sphere_state p 1 1 [1]).
  { constructor; try lra; try (cbn; auto; fail).
    - intros i Hi. cbn in Hi. destruct i as [ | i]; [ | lia]. cbn. lra.
    - exists 0%nat. cbn. split; [lia | lra]. }
  assert (Ed : Di X 1 0 = 0.88).
  { unfold Di. change (Sg X 0%nat) with 1. change (Ep X 0%nat) with 0. replace (-3 * 0 / 1) with 0 by lra. rewrite exp_0. lra. }
  assert (EZ : forall k, Zeta X 1 rho k = PI / 6 * 0.88 ^ k).
  { intros k. unfold Zeta. change (N X) with 1%nat. cbn [seq rsum]. rewrite Ed. change (M X 0%nat) with 1. unfold rho. cbn [nth]. lra. }
  pose proof PI_RGT_0 as PI0. pose proof PI_4 as PI4.
  assert (ER : 0 <= Eta X 1 rho <= 0.5) by (unfold Eta; rewrite EZ; lra).
  assert (Gb : 0 < Gij X 1 rho 0 0 <= 10).
  { split; [apply (contact_pos exact_libm p 1 1 [1] S); [fold rho; change (Eta X 1 rho < 1); lra | cbn; lia | cbn; lia] | ].
    unfold Gij. fold (Eta X 1 rho). rewrite Ed, !EZ. replace (0.88 * 0.88 / (0.88 + 0.88)) with 0.44 by lra.
    assert (Z2 : 0 <= PI / 6 * 0.88 ^ 2 <= 0.6) by lra. set (z := PI / 6 * 0.88 ^ 2) in *. clearbody z. set (i := / (1 - Eta X 1 rho)). unfold Rdiv. rewrite <- !pow_inv. fold i.
    assert (I : 0 <= i <= 2) by (unfold i; split; [left; apply Rinv_0_lt_compat; lra | replace 2 with (/ 0.5) by lra; apply Rinv_le_contravar; lra]). clearbody i.
    assert (I2 : 0 <= i ^ 2 <= 2 ^ 2) by (split; [apply pow_le; lra | apply pow_incr; lra]). assert (I3 : 0 <= i ^ 3 <= 2 ^ 3) by (split; [apply pow_le; lra | apply pow_incr; lra]). assert (Z3 : 0 <= z ^ 2 <= 0.6 ^ 2) by (split; [apply pow_le; lra | apply pow_incr; lra]).
    assert (z * i ^ 2 <= 0.6 * 2 ^ 2) by (apply Rmult_le_compat; lra). assert (z ^ 2 * i ^ 3 <= 0.6 ^ 2 * 2 ^ 3) by (apply Rmult_le_compat; lra). lra. }
  assert (Qe : pair_strength X (pair_volume p) (pair_energy p) 1 rho 0 0 = Gij X 1 rho 0 0 * (exp (1 / 2) - 1)).
  { unfold pair_strength. rewrite Kv, Ke. unfold Sij. change (Sg X 0%nat) with 1. replace (1 / 2 / 1) with (1 / 2) by lra. replace ((1 + 1) / 2) with 1 by lra. ring. }
  assert (Eb : 0 < exp (1 / 2) - 1 <= 2).
  { split; [pose proof (exp_ineq1_le (1 / 2)); lra | ]. assert (exp (1 / 2) <= exp 1) by (left; apply exp_increasing; lra). pose proof exp_le_3. lra. }
  set (q := pair_strength X (pair_volume p) (pair_energy p) 1 rho 0 0) in *.
  assert (Q : 0 < q <= 20) by (rewrite Qe; split; [apply Rmult_lt_0_compat; lra | replace 20 with (10 * 2) by lra; apply Rmult_le_compat; lra]).
  destruct (unbonded_exists q (proj1 Q)) as (x & X0 & EX & Xl).
  assert (Xb : / 21 <= x) by (eapply Rle_trans; [ | exact Xl]; apply Rinv_le_contravar; lra).
  assert (Hb : forall i j, (i < length [b_sticky])%nat -> (j < length [b_sticky])%nat -> nth j (nth i [[0]] nil) 0 <= 1) by (intros [ | i] [ | j] Hi Hj; cbn in *; try lra; lia).
  assert (Eq : q * rho 0%nat * 1 = q) by (unfold rho; cbn [nth]; lra).
  assert (Z : @n0 BE = 0) by (change (rnd 0 = 0); apply rnd_0).
  assert (Nd : p_ndipole p = 0%nat).
  { change (@length nat (@nonzero_comp BE [@mu2_of BE (@n0 BE) 1 1 0]) = 0%nat). rewrite Z. unfold BE. rewrite zero_comp; [reflexivity | ].
    unfold mu2_of. cbn [nmul ndiv BNum]. rewrite Rmult_0_l, rnd_0. unfold Rdiv at 1. rewrite Rmult_0_l, rnd_0, Rmult_0_l, rnd_0, Rmult_0_l, rnd_0. reflexivity. }
  assert (Nq : p_nquadpole p = 0%nat).
  { change (@length nat (@nonzero_comp BE [@q2_of BE (@n0 BE) 1 1 0]) = 0%nat). rewrite Z. unfold BE. rewrite zero_comp; [reflexivity | ].
    unfold q2_of. cbn [nmul ndiv BNum]. rewrite Rmult_0_l, rnd_0. unfold Rdiv at 1. rewrite Rmult_0_l, rnd_0, Rmult_0_l, rnd_0, Rmult_0_l, rnd_0. reflexivity. }
  assert (Na : p_nassoc p = 1%nat) by (change (length (p_assoc_comp p) = 1%nat); rewrite AC; reflexivity).
  pose proof (C52_residual_assoc exact_libm lu [b_sticky] [[0]] 1 1 [1] 1 x exact_libm_ok S Hb Nd Nq Na) as T. cbv zeta in T.
  change (@from_records_raw (BNum exact_libm) [b_sticky] [[0]]) with p in T. fold X in T. fold rho in T. change (BNum exact_libm) with BE in T. rewrite AC in T. cbn [nth] in T. fold q in T. rewrite Eq in T. change (INR (length [b_sticky])) with 1 in T.
  rewrite Ke in T. specialize (T ltac:(lra) ltac:(lra) ltac:(lra) ltac:(cbn; lia) eq_refl eq_refl ltac:(lra) ltac:(lra) ltac:(lra) (proj1 Q) X0 EX ltac:(lra)). destruct T as (A & EA & T).
  exists q, x, A. do 5 (split; [auto; lra | ]).
  assert (P : 0 < f_hs X 1 rho) by (apply (f_hs_pos exact_libm p 1 1 [1] S); fold rho; change (Eta X 1 rho < 1); lra).
  assert (C0 : f_hc X 1 rho = 0) by (unfold f_hc; change (N X) with 1%nat; cbn [seq rsum]; change (M X 0%nat) with 1; lra).
  assert (C1 : err_hc X 1 1 rho = 0).
  { unfold err_hc. change (N X) with 1%nat. cbn [seq rsum]. change (M X 0%nat) with 1. replace (1 - 1) with 0 by lra. rewrite Rabs_R0. ring. }
  assert (Mx : forall k, (0 < k)%nat -> mixsum X 1 rho k = 0).
  { intros k Hk. unfold mixsum, Eij, Eij0. change (N X) with 1%nat. cbn [seq rsum]. change (Ep X 0%nat) with 0. rewrite Rmult_0_r, sqrt_0, Rmult_0_r. unfold Rdiv. rewrite !Rmult_0_l. destruct k as [ | k]; [lia | ]. rewrite pow_ne_zero by lia. ring. }
  assert (D0 : f_disp X 1 rho = 0) by (unfold f_disp; rewrite !Mx by lia; ring).
  assert (D1 : err_disp X 1 1 rho = 0) by (unfold err_disp, disp_scale; cbv zeta; rewrite !Mx by lia; ring).
  assert (I : / (1 - Eta X 1 rho) <= / 0.5) by (apply Rinv_le_contravar; lra). set (i := / (1 - Eta X 1 rho)) in *.
  assert (I0 : 0 < i) by (unfold i; apply Rinv_0_lt_compat; lra).
  assert (Se : strength_error (length [b_sticky]) (Eta X 1 rho) (1 / 2 / 1) <= 700 * u).
  { unfold strength_error. cbn [length INR]. unfold Rdiv at 1. fold i. assert ((1 + 30) * u * i <= (1 + 30) * u * 2) by (apply Rmult_le_compat_l; lra). lra. }
  set (se := strength_error _ _ _) in *. clearbody se.
  assert (Eh : err_hs X 1 1 rho <= 1050 * u * f_hs X 1 rho).
  { unfold err_hs. change (N X) with 1%nat. change (INR 1) with 1. unfold Rdiv. fold i. fold u. change (/ 2 ^ 53) with u. rewrite Rmult_1_l. apply Rmult_le_compat_r; [lra | ]. assert (i * u <= 2 * u) by (apply Rmult_le_compat_r; lra). lra. }
  assert (X1 : x <= 1) by (assert (0 <= x * (q * x)) by (apply Rmult_le_pos; [ | apply Rmult_le_pos]; lra); lra).
  assert (Ix : / x <= 21) by (replace 21 with (/ / 21) by lra; apply Rinv_le_contravar; lra).
  assert (Ll : Rabs (ln x) <= 20).
  { rewrite <- (Rinv_inv x). rewrite ln_Rinv by (apply Rinv_0_lt_compat; auto). rewrite Rabs_Ropp. assert (1 <= / x) by (rewrite <- Rinv_1; apply Rinv_le_contravar; lra). set (y := / x) in *. clearbody y.
    pose proof (exp_ineq1_le (ln y)) as E1. rewrite exp_ln in E1 by lra. assert (0 <= ln y) by (rewrite <- ln_1; destruct (Req_dec 1 y) as [<- | ]; [lra | left; apply ln_increasing; lra]). rewrite Rabs_pos_eq by auto. lra. }
  assert (Rm : Rmin (/ q) (2 ^ 26) <= 2 ^ 26) by apply Rmin_r.
  assert (Fx : Rabs (1 * (2 * 1 * (ln x - x / 2 + 1 / 2))) <= 100) by (apply Rabs_le_inv in Ll; apply Rabs_le; lra).
  replace (rho 0%nat) with 1 in T by (unfold rho; cbn [nth]; lra). rewrite C0, C1, D0, D1, Rabs_R0, (Rabs_pos_eq (f_hs X 1 rho)) in T by lra.
  set (w := Rmin _ _) in *. clearbody w. change R in (type of A). set (h := f_hs X 1 rho) in *. set (eh := err_hs X 1 1 rho) in *. clearbody h eh. set (fx' := Rabs (1 * _)) in *. clearbody fx'.
  replace (A - (h + 2 * (ln x - x / 2 + 1 / 2))) with (A - 1 * (h + 0 + 0 + 1 * (2 * 1 * (ln x - x / 2 + 1 / 2)))) by lra. eapply Rle_trans; [exact T | ].
  set (al := Rabs (ln x)) in *. clearbody al. change (/ 2 ^ 53) with u in *. unfold Rdiv. change (/ 2 ^ 53) with u. set (ix' := / x) in *. clearbody ix'. clear - U0 U1 P Se Eh Ix Ll Rm Fx.
  assert (W1 : w * u <= 2 ^ 26 * u) by (apply Rmult_le_compat_r; lra). assert (W2 : ix' * u <= 21 * u) by (apply Rmult_le_compat_r; lra). assert (W3 : al * u <= 20 * u) by (apply Rmult_le_compat_r; lra). assert (W4 : h * u <= h * / 10 ^ 15) by (apply Rmult_le_compat_l; lra).
  set (b := eh + 0 + 0 + _). assert (Bb : b <= 1050 * u * h + / 10 ^ 6 / 2) by (unfold b; lra). clearbody b.
  assert (W5 : b * u <= (1050 * u * h + / 10 ^ 6 / 2) * u) by (apply Rmult_le_compat_r; lra). assert (W6 : fx' * u <= 100 * u) by (apply Rmult_le_compat_r; lra).
  assert (W7 : u * (u * h) <= / 10 ^ 15 * (u * h)) by (apply Rmult_le_compat_r; [apply Rmult_le_pos; lra | lra]). lra.
Qed.
Print Assumptions C52_sum.
Print Assumptions C52_residual.
Print Assumptions C52_residual_assoc.
