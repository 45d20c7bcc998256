(** C16, C17, C18, C24: construction of the parameters. *)
From Coq Require Import ZArith QArith Reals Lra Lia List Bool Sorted.
From Verif Require Import Num RNum RSum M_Params F_Params M_Eos M_Dft Spec F_Spec Samples.
Import ListNotations.
Local Open Scope R_scope.

Section C16.
  Variables (prs : list (pure_record RNum)) (bin : list (list R)) (p : params RNum).
  Hypothesis Hp : from_records prs bin = Some p.

  (** the optional parameters of a record with their documented default values *)
  Definition opt_or (o : option R) (d : R) : R := match o with Some x => x | None => d end.

  Let P0 : p = from_records_raw prs bin := from_records_raw_of _ _ _ Hp.
  Let nth_rec i pr : nth_error prs i = Some pr -> (i < length prs)%nat /\ nth i prs default_pure = pr.
  Proof. intros H. split; [apply nth_error_Some; congruence | apply nth_error_nth; auto]. Qed.

  (** pure-component values and defaults of missing optional parameters *)
  Theorem C16_pure_values i pr : nth_error prs i = Some pr ->
    let r := pr_model pr in
    nth i (p_m p) 0 = r_m r /\ nth i (p_sigma p) 0 = r_sigma r /\ nth i (p_epsilon_k p) 0 = r_epsilon_k r /\
    nth i (p_mu p) 0 = opt_or (r_mu r) 0 /\ nth i (p_q p) 0 = opt_or (r_q r) 0 /\
    nth i (p_kappa_ab p) 0 = opt_or (r_kappa_ab r) 0 /\
    nth i (p_epsilon_k_ab p) 0 = opt_or (r_epsilon_k_ab r) 0 /\
    nth i (p_na p) 0 = opt_or (r_na r) 1 /\ nth i (p_nb p) 0 = opt_or (r_nb r) 1 /\
    nth i (p_molarweight p) 0 = pr_molarweight pr.
  Proof.
    intros H r. destruct (nth_rec _ _ H) as [Hi E]. rewrite P0. unfold r.
    repeat split.
    - rewrite <- E. apply (fr_m prs bin default_pure i Hi).
    - rewrite <- E. apply (fr_sigma prs bin default_pure i Hi).
    - rewrite <- E. apply (fr_eps prs bin default_pure i Hi).
    - rewrite <- E. apply (fr_mu prs bin default_pure i Hi).
    - rewrite <- E. apply (fr_q prs bin default_pure i Hi).
    - rewrite <- E. apply (fr_kab prs bin default_pure i Hi).
    - rewrite <- E. apply (fr_eab prs bin default_pure i Hi).
    - rewrite <- E. apply (fr_na prs bin default_pure i Hi).
    - rewrite <- E. apply (fr_nb prs bin default_pure i Hi).
    - rewrite <- E. apply (fr_mw prs bin default_pure i Hi).
  Qed.

  (** dimensionless moments *)
  Theorem C16_moments i pr : nth_error prs i = Some pr ->
    let r := pr_model pr in
    nth i (p_mu2 p) 0 = opt_or (r_mu r) 0 ^ 2 / (r_m r * r_sigma r ^ 3 * r_epsilon_k r) * (1e-19 / 1.380649e-23) /\
    nth i (p_q2 p) 0 = opt_or (r_q r) 0 ^ 2 / (r_m r * r_sigma r ^ 5 * r_epsilon_k r) * (1e-19 / 1.380649e-23).
  Proof.
    intros H r. destruct (nth_rec _ _ H) as [Hi E].
    destruct (C16_pure_values i pr H) as (Em & Es & Ee & Emu & Eq & _). fold r in Em, Es, Ee, Emu, Eq.
    change (@ix RNum (p_m p) i = r_m r) in Em. change (@ix RNum (p_sigma p) i = r_sigma r) in Es.
    change (@ix RNum (p_epsilon_k p) i = r_epsilon_k r) in Ee.
    change (@ix RNum (p_mu p) i = opt_or (r_mu r) 0) in Emu. change (@ix RNum (p_q p) i = opt_or (r_q r) 0) in Eq.
    split.
    - change (nth i (p_mu2 p) 0) with (@ix RNum (p_mu2 p) i).
      rewrite P0, (fr_mu2 prs bin i Hi), <- P0.
      rewrite Em, Es, Ee, Emu.
      unfold mu2_of, kb_conv, e_m19. rn. unfold Rdiv. 
      replace (r_m r * r_sigma r * r_sigma r * r_sigma r * r_epsilon_k r) with (r_m r * r_sigma r ^ 3 * r_epsilon_k r) by ring.
      lits. set (A := / (r_m r * r_sigma r ^ 3 * r_epsilon_k r)). field.
    - change (nth i (p_q2 p) 0) with (@ix RNum (p_q2 p) i).
      rewrite P0, (fr_q2 prs bin i Hi), <- P0.
      rewrite Em, Es, Ee, Eq.
      unfold q2_of, kb_conv, e_m19. rn. unfold Rdiv.
      lits. set (A := / (r_m r * r_sigma r ^ 5 * r_epsilon_k r)). field.
  Qed.

  (** combining rules for every pair of components; [k] is the binary interaction parameter *)
  Theorem C16_combining_rules i j pi pj : nth_error prs i = Some pi -> nth_error prs j = Some pj ->
    let a := pr_model pi in let b := pr_model pj in
    let k := nth j (nth i bin []) 0 in
    let ka := opt_or (r_kappa_ab a) 0 in let kb := opt_or (r_kappa_ab b) 0 in
    nth j (nth i (p_sigma_ij p) []) 0 = (r_sigma a + r_sigma b) / 2 /\
    nth j (nth i (p_e_k_ij p) []) 0 = sqrt (r_epsilon_k a * r_epsilon_k b) /\
    nth j (nth i (p_epsilon_k_ij p) []) 0 = (1 - k) * sqrt (r_epsilon_k a * r_epsilon_k b) /\
    (ka <> 0 -> kb <> 0 ->
      (0 < r_sigma a -> 0 < r_sigma b ->
       nth j (nth i (p_kappa_aibj p) []) 0
       = sqrt (ka * kb) * (2 * sqrt (r_sigma a * r_sigma b) / (r_sigma a + r_sigma b)) ^ 3) /\
      nth j (nth i (p_epsilon_k_aibj p) []) 0
       = (opt_or (r_epsilon_k_ab a) 0 + opt_or (r_epsilon_k_ab b) 0) / 2) /\
    (ka = 0 \/ kb = 0 ->
      nth j (nth i (p_kappa_aibj p) []) 0 = 0 /\ nth j (nth i (p_epsilon_k_aibj p) []) 0 = 0).
  Proof.
    intros Hi Hj a b k ka kb.
    destruct (C16_pure_values i pi Hi) as (_ & Esi & Eei & _ & _ & Eki & Eai & _).
    destruct (C16_pure_values j pj Hj) as (_ & Esj & Eej & _ & _ & Ekj & Eaj & _).
    fold a in Esi, Eei, Eki, Eai. fold b in Esj, Eej, Ekj, Eaj. fold ka in Eki. fold kb in Ekj.
    destruct (nth_rec _ _ Hi) as [Li _]. destruct (nth_rec _ _ Hj) as [Lj _].
    assert (As : forall i pr, nth_error prs i = Some pr ->
      existsb (Nat.eqb i) (p_assoc_comp p) = true <-> opt_or (r_kappa_ab (pr_model pr)) 0 <> 0).
    { intros i' pr H. rewrite existsb_eqb. rewrite P0.
      change (p_assoc_comp (from_records_raw prs bin)) with (nonzero_comp (p_kappa_ab (from_records_raw prs bin))).
      rewrite nonzero_comp_in, fr_len_kab, nonzero_R, <- P0.
      destruct (C16_pure_values i' pr H) as (_ & _ & _ & _ & _ & E & _).
      change (@ix RNum (p_kappa_ab p) i') with (nth i' (p_kappa_ab p) 0). rewrite E.
      destruct (nth_rec _ _ H). tauto. }
    assert (E1 := fr_sigma_ij prs bin i j Li Lj). assert (E2 := fr_e_k_ij prs bin i j Li Lj).
    assert (E3 := fr_epsilon_k_ij prs bin i j Li Lj). assert (E4 := fr_kappa_aibj prs bin i j Li Lj).
    assert (E5 := fr_epsilon_k_aibj prs bin i j Li Lj).
    rewrite <- P0 in E1, E2, E3, E4, E5.
    change (@ix RNum (p_sigma p) i = r_sigma a) in Esi. change (@ix RNum (p_sigma p) j = r_sigma b) in Esj.
    change (@ix RNum (p_epsilon_k p) i = r_epsilon_k a) in Eei. change (@ix RNum (p_epsilon_k p) j = r_epsilon_k b) in Eej.
    change (@ix RNum (p_kappa_ab p) i = ka) in Eki. change (@ix RNum (p_kappa_ab p) j = kb) in Ekj.
    change (@ix RNum (p_epsilon_k_ab p) i = opt_or (r_epsilon_k_ab a) 0) in Eai.
    change (@ix RNum (p_epsilon_k_ab p) j = opt_or (r_epsilon_k_ab b) 0) in Eaj.
    change (nth j (nth i (p_sigma_ij p) []) 0) with (@ix2 RNum (p_sigma_ij p) i j).
    change (nth j (nth i (p_e_k_ij p) []) 0) with (@ix2 RNum (p_e_k_ij p) i j).
    change (nth j (nth i (p_epsilon_k_ij p) []) 0) with (@ix2 RNum (p_epsilon_k_ij p) i j).
    change (nth j (nth i (p_kappa_aibj p) []) 0) with (@ix2 RNum (p_kappa_aibj p) i j).
    change (nth j (nth i (p_epsilon_k_aibj p) []) 0) with (@ix2 RNum (p_epsilon_k_aibj p) i j).
    change k with (@ix2 RNum bin i j).
    rewrite Esi, Esj in E1. rewrite Eei, Eej in E2, E3.
    rewrite Eki, Ekj, Esi, Esj in E4. rewrite Eai, Eaj in E5.
    rn_in E1. rn_in E2. rn_in E3. rn_in E4. rn_in E5.
    split; [rewrite E1; toR; field | ]. split; [exact E2 | ]. split; [exact E3 | ].
    split.
    - intros Ka Kb.
      assert (B : existsb (Nat.eqb i) (p_assoc_comp p) && existsb (Nat.eqb j) (p_assoc_comp p) = true).
      { apply andb_true_intro. split; [apply (As i pi Hi) | apply (As j pj Hj)]; auto. }
      rewrite B in E4, E5. split; [ | rewrite E5; toR; field].
      intros Sa Sb. rewrite E4. f_equal. unfold Rpowf.
      assert (0 < 2 * sqrt (r_sigma a * r_sigma b) / (r_sigma a + r_sigma b)).
      { apply Rdiv_lt_0_compat; [ | lra]. apply Rmult_lt_0_compat; [lra | ].
        apply sqrt_lt_R0. apply Rmult_lt_0_compat; auto. }
      destruct (Rlt_dec 0 _); [ | contradiction].
      replace 3 with (INR 3) by (simpl; lra). apply Rpower_pow; auto.
    - intros K.
      assert (B : existsb (Nat.eqb i) (p_assoc_comp p) && existsb (Nat.eqb j) (p_assoc_comp p) = false).
      { apply andb_false_iff. destruct K as [K | K]; [left | right]; apply not_true_is_false; intros H.
        - apply (As i pi Hi) in H. auto.
        - apply (As j pj Hj) in H. auto. }
      rewrite B in E4, E5. auto.
  Qed.

  (** symmetry *)
  Theorem C16_symmetric i j : (i < length prs)%nat -> (j < length prs)%nat ->
    nth j (nth i (p_sigma_ij p) []) 0 = nth i (nth j (p_sigma_ij p) []) 0 /\
    nth j (nth i (p_e_k_ij p) []) 0 = nth i (nth j (p_e_k_ij p) []) 0 /\
    nth j (nth i (p_kappa_aibj p) []) 0 = nth i (nth j (p_kappa_aibj p) []) 0 /\
    nth j (nth i (p_epsilon_k_aibj p) []) 0 = nth i (nth j (p_epsilon_k_aibj p) []) 0 /\
    (nth j (nth i bin []) 0 = nth i (nth j bin []) 0 ->
     nth j (nth i (p_epsilon_k_ij p) []) 0 = nth i (nth j (p_epsilon_k_ij p) []) 0).
  Proof.
    intros Li Lj.
    assert (E1 := fr_sigma_ij prs bin i j Li Lj). assert (E2 := fr_e_k_ij prs bin i j Li Lj).
    assert (E3 := fr_epsilon_k_ij prs bin i j Li Lj). assert (E4 := fr_kappa_aibj prs bin i j Li Lj).
    assert (E5 := fr_epsilon_k_aibj prs bin i j Li Lj).
    assert (F1 := fr_sigma_ij prs bin j i Lj Li). assert (F2 := fr_e_k_ij prs bin j i Lj Li).
    assert (F3 := fr_epsilon_k_ij prs bin j i Lj Li). assert (F4 := fr_kappa_aibj prs bin j i Lj Li).
    assert (F5 := fr_epsilon_k_aibj prs bin j i Lj Li).
    rewrite <- P0 in E1, E2, E3, E4, E5, F1, F2, F3, F4, F5. rn_in E1. rn_in E2. rn_in E3. rn_in E4. rn_in E5.
    rn_in F1. rn_in F2. rn_in F3. rn_in F4. rn_in F5.
    change (nth j (nth i (p_sigma_ij p) []) 0) with (@ix2 RNum (p_sigma_ij p) i j).
    change (nth j (nth i (p_e_k_ij p) []) 0) with (@ix2 RNum (p_e_k_ij p) i j).
    change (nth j (nth i (p_epsilon_k_ij p) []) 0) with (@ix2 RNum (p_epsilon_k_ij p) i j).
    change (nth j (nth i (p_kappa_aibj p) []) 0) with (@ix2 RNum (p_kappa_aibj p) i j).
    change (nth j (nth i (p_epsilon_k_aibj p) []) 0) with (@ix2 RNum (p_epsilon_k_aibj p) i j).
    change (nth j (nth i bin []) 0) with (@ix2 RNum bin i j).
    change (nth i (nth j (p_sigma_ij p) []) 0) with (@ix2 RNum (p_sigma_ij p) j i).
    change (nth i (nth j (p_e_k_ij p) []) 0) with (@ix2 RNum (p_e_k_ij p) j i).
    change (nth i (nth j (p_epsilon_k_ij p) []) 0) with (@ix2 RNum (p_epsilon_k_ij p) j i).
    change (nth i (nth j (p_kappa_aibj p) []) 0) with (@ix2 RNum (p_kappa_aibj p) j i).
    change (nth i (nth j (p_epsilon_k_aibj p) []) 0) with (@ix2 RNum (p_epsilon_k_aibj p) j i).
    change (nth i (nth j bin []) 0) with (@ix2 RNum bin j i).
    repeat split.
    - rewrite E1, F1. toR. ring.
    - rewrite E2, F2. toR. f_equal. toR. ring.
    - rewrite E4, F4, (andb_comm (existsb (Nat.eqb j) _)). rewrite (Rmult_comm (ix (p_kappa_ab p) j)), (Rmult_comm (ix (p_sigma p) j)), (Rplus_comm (ix (p_sigma p) j)). reflexivity.

    - rewrite E5, F5, (andb_comm (existsb (Nat.eqb j) _)), (Rplus_comm (ix (p_epsilon_k_ab p) j)). reflexivity.
    - intros E. rewrite E3, F3, E. toR. f_equal. f_equal. toR. ring.
  Qed.

  (** pure-component values on the diagonal *)
  Theorem C16_diagonal i pr : nth_error prs i = Some pr ->
    let r := pr_model pr in
    nth i (nth i (p_sigma_ij p) []) 0 = r_sigma r /\
    (0 <= r_epsilon_k r -> nth i (nth i (p_e_k_ij p) []) 0 = r_epsilon_k r) /\
    (0 <= r_epsilon_k r -> nth i (nth i bin []) 0 = 0 -> nth i (nth i (p_epsilon_k_ij p) []) 0 = r_epsilon_k r) /\
    (0 < r_sigma r -> 0 <= opt_or (r_kappa_ab r) 0 ->
     nth i (nth i (p_kappa_aibj p) []) 0 = opt_or (r_kappa_ab r) 0) /\
    (opt_or (r_kappa_ab r) 0 <> 0 ->
     nth i (nth i (p_epsilon_k_aibj p) []) 0 = opt_or (r_epsilon_k_ab r) 0).
  Proof.
    intros Hi r. destruct (C16_combining_rules i i pr pr Hi Hi) as (E1 & E2 & E3 & E4 & E5).
    fold r in E1, E2, E3, E4, E5. cbv zeta in *.
    split; [rewrite E1; toR; field | ].
    split; [intros; rewrite E2; apply sqrt_square; auto | ].
    split; [intros He Hb; rewrite E3, Hb, sqrt_square by auto; toR; ring | ].
    split; [ | intros Hk; rewrite (proj2 (E4 Hk Hk)); toR; field].
    intros Hs Hk. destruct (Req_dec (opt_or (r_kappa_ab r) 0) 0) as [Z | Z].
    - rewrite Z. apply E5. auto.
    - rewrite (proj1 (E4 Z Z) Hs Hs). rewrite !sqrt_square by lra.
      replace (2 * r_sigma r / (r_sigma r + r_sigma r)) with 1 by (field; lra). toR. ring.
  Qed.

  (** the association cross parameter is non-zero exactly for pairs of associating components *)
  Theorem C16_cross_association_iff i j pi pj : nth_error prs i = Some pi -> nth_error prs j = Some pj ->
    0 < r_sigma (pr_model pi) -> 0 < r_sigma (pr_model pj) ->
    0 <= opt_or (r_kappa_ab (pr_model pi)) 0 -> 0 <= opt_or (r_kappa_ab (pr_model pj)) 0 ->
    (nth j (nth i (p_kappa_aibj p) []) 0 <> 0 <->
     opt_or (r_kappa_ab (pr_model pi)) 0 <> 0 /\ opt_or (r_kappa_ab (pr_model pj)) 0 <> 0).
  Proof.
    intros Hi Hj Si Sj Ki Kj.
    destruct (C16_combining_rules i j pi pj Hi Hj) as (_ & _ & _ & E4 & E5). cbv zeta in *.
    set (ka := opt_or (r_kappa_ab (pr_model pi)) 0) in *. set (kb := opt_or (r_kappa_ab (pr_model pj)) 0) in *.
    split.
    - intros H. split; intros Z; apply H; apply E5; auto.
    - intros [Za Zb]. rewrite (proj1 (E4 Za Zb) Si Sj). apply Rgt_not_eq. apply Rmult_lt_0_compat.
      + apply sqrt_lt_R0. apply Rmult_lt_0_compat; lra.
      + apply pow_lt. apply Rdiv_lt_0_compat; [ | lra]. apply Rmult_lt_0_compat; [lra | ].
        apply sqrt_lt_R0. apply Rmult_lt_0_compat; auto.
  Qed.

  (** the construction panics exactly when the binary matrix is too small *)
  (* ------------------------------------------------------------------------ C17 *)

  (** dipole_comp / quadpole_comp / assoc_comp *)
  Definition index_set (l : list nat) (q : pcsaft_record RNum -> Prop) : Prop :=
    StronglySorted lt l /\ NoDup l /\
    forall i, In i l <-> exists pr, nth_error prs i = Some pr /\ q (pr_model pr).

  Definition physical_record (r : pcsaft_record RNum) : Prop :=
    0 < r_m r /\ 0 < r_sigma r /\ 0 < r_epsilon_k r.
  Hypothesis Hph : forall pr, In pr prs -> physical_record (pr_model pr).

  Let nz (x : R) : x <> 0 <-> x ^ 2 <> 0.
  Proof.
    split; intros H; [apply pow_nonzero; auto | intros Z; apply H; rewrite Z; ring].
  Qed.

  Theorem C17_index_sets :
    index_set (p_dipole_comp p) (fun r => opt_or (r_mu r) 0 <> 0) /\
    index_set (p_quadpole_comp p) (fun r => opt_or (r_q r) 0 <> 0) /\
    index_set (p_assoc_comp p) (fun r => opt_or (r_kappa_ab r) 0 <> 0) /\
    p_ndipole p = length (p_dipole_comp p) /\ p_nquadpole p = length (p_quadpole_comp p) /\
    p_nassoc p = length (p_assoc_comp p).
  Proof.
    assert (G : forall (l : list (car RNum)) q, length l = length prs ->
      (forall i pr, nth_error prs i = Some pr -> nth i l 0 <> 0 <-> q (pr_model pr)) ->
      index_set (@nonzero_comp RNum l) q).
    { intros l q Hl H. split; [apply nonzero_comp_sorted | split; [apply nonzero_comp_nodup | ]].
      intros i. rewrite nonzero_comp_in, nonzero_R. change (@ix RNum l i) with (nth i l 0). split.
      - intros [Li Hn]. rewrite Hl in Li. destruct (nth_error prs i) as [pr | ] eqn:E.
        + exists pr. split; auto. apply (H i pr E). auto.
        + apply nth_error_None in E. lia.
      - intros (pr & E & Q). split; [ | apply (H i pr E); auto].
        rewrite Hl. apply nth_error_Some. congruence. }
    assert (Pos : forall i pr, nth_error prs i = Some pr ->
      0 < r_m (pr_model pr) * r_sigma (pr_model pr) ^ 3 * r_epsilon_k (pr_model pr) /\
      0 < r_m (pr_model pr) * r_sigma (pr_model pr) ^ 5 * r_epsilon_k (pr_model pr)).
    { intros i pr E. destruct (Hph pr (nth_error_In _ _ E)) as (A & B & C).
      split; (apply Rmult_lt_0_compat; [apply Rmult_lt_0_compat; [auto | apply pow_lt; auto] | auto]). }
    assert (Z : forall a b c, 0 < b -> 0 < c -> a / b * c <> 0 <-> a <> 0).
    { intros a b c Hb Hc. assert (0 < / b) by (apply Rinv_0_lt_compat; auto). split; intros H1 H2.
      - apply H1. rewrite H2. unfold Rdiv. ring.
      - unfold Rdiv in H2. apply Rmult_integral in H2. destruct H2 as [H2 | H2]; [ | lra].
        apply Rmult_integral in H2. destruct H2; [auto | lra]. }
    assert (Lmu := fr_len_mu2 prs bin). assert (Lq := fr_len_q2 prs bin). assert (Lk := fr_len_kab prs bin).
    rewrite <- P0 in Lmu, Lq, Lk.
    split; [ | split; [ | split; [ | repeat split; rewrite P0; reflexivity]]].
    - replace (p_dipole_comp p) with (nonzero_comp (p_mu2 p)) by (rewrite P0; reflexivity).
      apply G; auto. intros j pr E. rewrite (proj1 (C16_moments j pr E)).
      destruct (Pos j pr E). rewrite Z by (auto; lra). symmetry. apply nz.
    - replace (p_quadpole_comp p) with (nonzero_comp (p_q2 p)) by (rewrite P0; reflexivity).
      apply G; auto. intros j pr E. rewrite (proj2 (C16_moments j pr E)).
      destruct (Pos j pr E). rewrite Z by (auto; lra). symmetry. apply nz.
    - replace (p_assoc_comp p) with (nonzero_comp (p_kappa_ab p)) by (rewrite P0; reflexivity).
      apply G; auto. intros j pr E.
      destruct (C16_pure_values j pr E) as (_ & _ & _ & _ & _ & Ek & _). rewrite Ek. tauto.
  Qed.
End C16.

(** C16: construction panics iff the binary matrix does not cover all pairs *)
Theorem C16_panics_iff prs (bin : list (list (car RNum))) :
  from_records (K := RNum) prs bin = None <->
  (length bin < length prs)%nat \/ exists row, In row bin /\ (length row < length prs)%nat.
Proof.
  unfold from_records, binary_ok. destruct (_ && _) eqn:E.
  - split; [discriminate | ]. apply andb_prop in E. destruct E as [E1 E2]. apply Nat.leb_le in E1.
    rewrite forallb_forall in E2. intros [H | (r & Hr & H)]; [lia | ].
    specialize (E2 r Hr). apply Nat.leb_le in E2. lia.
  - split; auto. intros _. apply andb_false_iff in E. destruct E as [E | E].
    + apply Nat.leb_gt in E. auto.
    + right. destruct (existsb (fun row => negb (Nat.leb (length prs) (length row))) bin) eqn:X.
      * apply existsb_exists in X. destruct X as (r & Hr & H). exists r. split; auto.
        apply negb_true_iff, Nat.leb_gt in H. auto.
      * exfalso. apply not_true_iff_false in E. apply E. apply forallb_forall. intros r Hr.
        destruct (Nat.leb (length prs) (length r)) eqn:Y; auto.
        assert (existsb (fun row => negb (Nat.leb (length prs) (length row))) bin = true).
        { apply existsb_exists. exists r. rewrite Y. auto. }
        congruence.
Qed.

(* ----------------------------------------------------------------------------- C18 *)

Section C18.
  Context {K : Num}.

  (** selected records and binary parameters, elementwise *)
  Definition selects {A} (l : list A) (idx : list nat) (r : list A) : Prop :=
    length r = length idx /\ forall i k, nth_error idx i = Some k -> nth_error r i = nth_error l k /\ nth_error l k <> None.

  Lemma subset_records_selects (prs : list (pure_record K)) idx r :
    subset_records prs idx = Some r <-> selects prs idx r.
  Proof.
    unfold subset_records. rewrite collect_opt_spec. revert r.
    induction idx as [ | a idx IH]; intros [ | x r]; simpl; split; intros H; try discriminate; auto.
    - split; auto. intros [ | i] k E; discriminate.
    - destruct H as [H _]. discriminate.
    - destruct H as [H _]. discriminate.
    - injection H as H0 H1. apply IH in H1. destruct H1 as [L N]. split; [simpl; lia | ].
      intros [ | i] k E; simpl in *; [injection E as <- | apply N; auto]. rewrite H0. split; [auto | discriminate].
    - destruct H as [L N]. simpl in L. f_equal.
      + destruct (N 0%nat a eq_refl) as [N1 _]. simpl in N1. auto.
      + apply IH. split; [lia | ]. intros i k E. apply (N (S i) k E).
  Qed.

  (** the parameters of a subset are the parameters built from the selected records *)
  Theorem C18_subset_from_records (prs : list (pure_record K)) bin p idx r :
    from_records prs bin = Some p -> selects prs idx r ->
    subset p idx = from_records r (map (fun i => map (fun j => nth j (nth i bin nil) n0) idx) idx) /\
    subset p idx <> None.
  Proof.
    intros Hp Hs. apply subset_records_selects in Hs. apply from_records_raw_of in Hp. subst p.
    assert (E : subset (from_records_raw prs bin) idx = from_records r (subset_binary bin idx)).
    { unfold subset. simpl. rewrite Hs. reflexivity. }
    split; [exact E | ]. rewrite E. unfold from_records.
    apply subset_records_selects in Hs. destruct Hs as [L _]. rewrite L, subset_binary_ok. discriminate.
  Qed.

  (** an index out of range panics *)
  Theorem C18_subset_panics (p : params K) idx i :
    In i idx -> (length (p_pure_records p) <= i)%nat -> subset p idx = None.
  Proof.
    intros Hi Hl. unfold subset. simpl.
    assert (E : subset_records (p_pure_records p) idx = None).
    { apply collect_opt_None. apply in_map_iff. exists i. split; auto. apply nth_error_None. auto. }
    rewrite E. reflexivity.
  Qed.

  (** a binary matrix of exactly the right shape *)
  Definition square (n : nat) (bin : list (list (car K))) : Prop :=
    length bin = n /\ forall row, In row bin -> length row = n.

  Lemma nth_seq_map {A} (l : list A) d : map (fun i => nth i l d) (seq 0 (length l)) = l.
  Proof.
    induction l; simpl; auto. f_equal. rewrite <- seq_shift, map_map. auto.
  Qed.

  (** selecting all components in order is the identity *)
  Theorem C18_subset_all (prs : list (pure_record K)) bin p :
    from_records prs bin = Some p -> square (length prs) bin ->
    subset p (seq 0 (length prs)) = Some p.
  Proof.
    intros Hp [Hl Hr]. pose proof (from_records_raw_of _ _ _ Hp) as E.
    assert (S : subset_records prs (seq 0 (length prs)) = Some prs).
    { unfold subset_records. apply collect_opt_spec.
      clear. induction prs; simpl; auto. f_equal. rewrite <- seq_shift, map_map. auto. }
    subst p. unfold subset. cbn [records fst snd p_pure_records p_binary_records from_records_raw]. rewrite S.
    replace (subset_binary bin (seq 0 (length prs))) with bin; auto.
    unfold subset_binary. 
    apply nth_ext with (d := nil) (d' := nil); [rewrite map_length, seq_length; auto | ].
    intros i Hi.
    rewrite (nth_indep (map (fun i => map (fun j => ix2 bin i j) (seq 0 (length prs))) (seq 0 (length prs))) nil (map (fun j => ix2 bin 0 j) (seq 0 (length prs)))) by (rewrite map_length, seq_length, <- Hl; auto).
    rewrite (map_nth (fun i => map (fun j => ix2 bin i j) (seq 0 (length prs)))).
    rewrite seq_nth by (rewrite <- Hl; auto). simpl. unfold ix2.
    replace (length prs) with (length (nth i bin nil)) by (apply Hr, nth_In; auto).
    symmetry. apply nth_seq_map.
  Qed.

  (** selecting twice equals selecting once with composed indices *)
  Theorem C18_subset_compose (prs : list (pure_record K)) bin p q idx idx' :
    from_records prs bin = Some p -> subset p idx = Some q ->
    (forall k, In k idx' -> (k < length idx)%nat) ->
    subset q idx' = subset p (map (fun k => nth k idx O) idx').
  Proof.
    intros Hp Hq Hi. apply from_records_raw_of in Hp. subst p.
    unfold subset in Hq. simpl in Hq. destruct (subset_records prs idx) as [r | ] eqn:E; [ | discriminate].
    apply from_records_raw_of in Hq. subst q. unfold subset. simpl.
    replace (subset_records prs (map (fun k => nth k idx O) idx')) with (subset_records r idx').
    - destruct (subset_records r idx') as [r' | ]; auto. f_equal.
      unfold subset_binary at 1 3. rewrite map_map. apply map_ext_in. intros i Hii.
      rewrite map_map. apply map_ext_in. intros j Hj.
      apply subset_binary_ix; auto.
    - unfold subset_records. rewrite map_map. f_equal. apply map_ext_in. intros k Hk.
      apply subset_records_selects in E. destruct E as [L N].
      specialize (Hi k Hk). apply (N k (nth k idx O)). apply nth_error_nth'. auto.
  Qed.

  (** equation of state and functional keep their options and FMT version *)
  Theorem C18_eos_subset (e e' : eos K) idx : eos_subset e idx = Some e' ->
    e_options e' = e_options e /\ subset (e_params e) idx = Some (e_params e') /\
    e' = with_options (e_params e') (e_options e).
  Proof.
    unfold eos_subset. destruct (subset _ _); intros H; [ | discriminate]. injection H as <-. auto.
  Qed.
  Theorem C18_functional_subset (f f' : functional K) idx : f_subset f idx = Some f' ->
    f_options f' = f_options f /\ f_version f' = f_version f /\
    subset (f_params f) idx = Some (f_params f') /\
    f' = f_with_options (f_params f') (f_version f) (f_options f).
  Proof.
    unfold f_subset. destruct (subset _ _); intros H; [ | discriminate]. injection H as <-. auto.
  Qed.
End C18.

(* ----------------------------------------------------------------------------- C24 *)

Section C24.
  Context {K : Num}.
  Variables (prs : list (pure_record K)) (bin : list (list (car K))) (p : params K).
  Hypothesis Hp : from_records prs bin = Some p.

  Lemma coeff_matrix_spec {A} rows (to_list : A -> list (car K)) (l : list (option A)) :
    match coeff_matrix rows to_list l with
    | None => exists i, nth_error l i = Some None
    | Some M => (forall i, (i < length l)%nat -> exists a, nth_error l i = Some (Some a) /\
         forall k, (k < rows)%nat -> ix2 M k i = ix (to_list a) k) /\
         length M = rows /\ forall row, In row M -> length row = length l
    end.
  Proof.
    unfold coeff_matrix. destruct (existsb _ l) eqn:E.
    - apply existsb_exists in E. destruct E as ([a | ] & Hi & H); [discriminate | ].
      apply In_nth_error in Hi. auto.
    - split; [ | split].
      + intros i Hi. destruct (nth_error l i) as [[a | ] | ] eqn:N.
        * exists a. split; auto. intros k Hk. rewrite ix2_mk2 by auto.
          rewrite (nth_error_nth l i None N). auto.
        * exfalso. apply not_true_iff_false in E. apply E. apply existsb_exists. exists None.
          split; auto. apply nth_error_In in N. auto.
        * apply nth_error_None in N. lia.
      + unfold mk2. apply mk1_length.
      + intros row H. unfold mk2, mk1 in H. apply in_map_iff in H. destruct H as (x & <- & _). apply mk1_length.
  Qed.

  (** coefficients are available iff every component carries them, and column [i] holds the
      coefficients of component [i] *)
  Definition available {A} (get : pcsaft_record K -> option A) (rows : nat) (to_list : A -> list (car K))
      (o : option (list (list (car K)))) : Prop :=
    (o = None <-> exists pr, In pr prs /\ get (pr_model pr) = None) /\
    forall M, o = Some M -> length M = rows /\ (forall row, In row M -> length row = length prs) /\
      forall i pr, nth_error prs i = Some pr -> exists a, get (pr_model pr) = Some a /\
        forall k, (k < rows)%nat -> nth i (nth k M nil) n0 = nth k (to_list a) n0.

  Lemma available_coeff {A} (get : pcsaft_record K -> option A) rows to_list :
    available get rows to_list (coeff_matrix rows to_list (map get (map pr_model prs))).
  Proof.
    pose proof (coeff_matrix_spec rows to_list (map get (map pr_model prs))) as S.
    assert (N : forall i, nth_error (map get (map pr_model prs)) i = option_map (fun pr => get (pr_model pr)) (nth_error prs i)).
    { intros i. rewrite map_map. apply nth_error_map. }
    destruct (coeff_matrix _ _ _) as [M | ]; split.
    - split; [discriminate | ]. intros (pr & Hin & E). exfalso.
      apply In_nth_error in Hin. destruct Hin as (i & Hi).
      destruct S as [S _]. destruct (S i) as (a & Ha & _).
      { rewrite !map_length. apply nth_error_Some. congruence. }
      rewrite N, Hi in Ha. simpl in Ha. congruence.
    - intros M' E. injection E as <-. destruct S as (S1 & S2 & S3). split; auto. split.
      { intros row Hr. rewrite (S3 row Hr), !map_length. auto. }
      intros i pr Hi. destruct (S1 i) as (a & Ha & Hk).
      { rewrite !map_length. apply nth_error_Some. congruence. }
      rewrite N, Hi in Ha. simpl in Ha. exists a. split; [congruence | ]. intros k L. apply (Hk k L).
    - split; auto. intros _. destruct S as (i & Hi). rewrite N in Hi.
      destruct (nth_error prs i) as [pr | ] eqn:E; simpl in Hi; [ | discriminate].
      exists pr. split; [apply nth_error_In in E; auto | congruence].
    - intros; discriminate.
  Qed.

  Theorem C24_coefficients_available :
    available r_viscosity 4 l4 (p_viscosity p) /\ available r_diffusion 5 l5 (p_diffusion p) /\
    available r_thermal 4 l4 (p_thermal p).
  Proof.
    rewrite (from_records_raw_of _ _ _ Hp). split; [apply available_coeff | split; apply available_coeff].
  Qed.
End C24.

(* ---------------------------------------------------------------------- non-vacuity *)

(** three different records, non-trivial binary matrix *)
Example C16_case : exists p, from_records sample_prs sample_bin = Some p /\
  nth 1 (nth 0 (p_sigma_ij p) []) 0 = (3.2723 + 3.1869) / 2 /\
  nth 2 (nth 1 (p_epsilon_k_ij p) []) 0 = (1 - 0.03) * sqrt (163.333 * 366.5121) /\
  nth 1 (nth 2 (p_kappa_aibj p) []) 0 = 0.
Proof.
  exists sample. split; [exact sample_ok | ].
  pose proof (C16_combining_rules _ _ _ sample_ok 0%nat 1%nat _ _ eq_refl eq_refl) as (A & _).
  pose proof (C16_combining_rules _ _ _ sample_ok 1%nat 2%nat _ _ eq_refl eq_refl) as (_ & _ & B & _).
  pose proof (C16_combining_rules _ _ _ sample_ok 2%nat 1%nat _ _ eq_refl eq_refl) as (_ & _ & _ & _ & C).
  split; [exact A | split; [exact B | ]]. apply C. right. reflexivity.
Qed.

Lemma sample_physical : forall pr, In pr sample_prs -> physical_record (pr_model pr).
Proof. intros pr [<- | [<- | [<- | []]]]; unfold physical_record; simpl; lra. Qed.

Example C17_case : p_dipole_comp sample = [0%nat] /\ p_quadpole_comp sample = [1%nat] /\ p_assoc_comp sample = [2%nat].
Proof.
  destruct (C17_index_sets _ _ _ sample_ok sample_physical) as (A & B & C & _).
  assert (G : forall l (q : pcsaft_record RNum -> Prop) k, index_set sample_prs l q ->
    (forall i pr, nth_error sample_prs i = Some pr -> q (pr_model pr) <-> i = k) -> (k < 3)%nat -> l = [k]).
  { intros l q k (S & N & I) Q Hk.
    assert (forall i, In i l <-> i = k).
    { intros i. rewrite I. split.
      - intros (pr & E & H). apply (Q i pr E). auto.
      - intros ->. destruct (nth_error sample_prs k) as [pr | ] eqn:E.
        + exists pr. split; auto. apply (Q k pr E). auto.
        + apply nth_error_None in E. simpl in E. lia. }
    destruct l as [ | a l]; [exfalso; apply (H k); auto | ].
    assert (a = k) by (apply H; left; auto). subst a. destruct l as [ | b l]; auto.
    assert (b = k) by (apply H; right; left; auto). subst b. inversion N; subst. simpl in H2. tauto. }
  repeat split.
  - apply (G _ _ 0%nat A); [ | lia]. intros [ | [ | [ | i]]] pr E; simpl in E; try (injection E as <-); simpl.
    + split; auto. intros _. lra.
    + split; [intros H; exfalso; apply H; auto | lia].
    + split; [intros H; exfalso; apply H; auto | lia].
    + destruct i; discriminate.
  - apply (G _ _ 1%nat B); [ | lia]. intros [ | [ | [ | i]]] pr E; simpl in E; try (injection E as <-); simpl.
    + split; [intros H; exfalso; apply H; auto | lia].
    + split; auto. intros _. lra.
    + split; [intros H; exfalso; apply H; auto | lia].
    + destruct i; discriminate.
  - apply (G _ _ 2%nat C); [ | lia]. intros [ | [ | [ | i]]] pr E; simpl in E; try (injection E as <-); simpl.
    + split; [intros H; exfalso; apply H; auto | lia].
    + split; [intros H; exfalso; apply H; auto | lia].
    + split; auto. intros _. lra.
    + destruct i; discriminate.
Qed.

Example C18_case : exists q, subset sample [2; 0; 2]%nat = Some q /\
  subset q [1; 0]%nat = subset sample [0; 2]%nat /\ subset sample [3]%nat = None /\
  subset sample (seq 0 3) = Some sample.
Proof.
  destruct (subset sample [2; 0; 2]%nat) as [q | ] eqn:E; [ | discriminate E]. exists q.
  split; auto. split; [ | split; [reflexivity | ]].
  - apply (C18_subset_compose _ _ _ _ [2; 0; 2]%nat [1; 0]%nat sample_ok E). simpl. intros k [<- | [<- | []]]; lia.
  - apply (C18_subset_all _ _ _ sample_ok). split; [reflexivity | ]. simpl.
    intros row [<- | [<- | [<- | []]]]; reflexivity.
Qed.

Example C24_case :
  p_viscosity (from_records_raw [pr_propane] [[0]]) <> None /\
  p_viscosity (from_records_raw [pr_propane; pr_butane] (zeros 2)) = None.
Proof. split; [discriminate | reflexivity]. Qed.

Print Assumptions C16_combining_rules.
Print Assumptions C17_index_sets.
Print Assumptions C18_subset_compose.
Print Assumptions C24_coefficients_available.
