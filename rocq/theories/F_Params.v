(** Facts about parameter construction, generic in the number structure. *)
From Coq Require Import ZArith QArith Lia List Bool Sorted String.
From Verif Require Import Num M_Params RSum.
Import ListNotations.
Local Open Scope num_scope.
Local Open Scope nat_scope.

Section Facts.
  Context {K : Num}.
  Notation T := (car K).
  Notation P := (params K).

  Lemma from_records_raw_of prs bin (p : P) :
    from_records prs bin = Some p -> p = from_records_raw prs bin.
  Proof. unfold from_records. destruct (binary_ok _ _); congruence. Qed.

  Lemma collect_opt_Some {A} (l : list A) : collect_opt (map Some l) = Some l.
  Proof. induction l; simpl; auto. rewrite IHl; auto. Qed.

  Lemma collect_opt_spec {A} (l : list (option A)) r :
    collect_opt l = Some r <-> l = map Some r.
  Proof.
    split.
    - revert r; induction l as [ | [a | ] l IH]; simpl; intros r H; try discriminate.
      + inversion H; auto.
      + destruct (collect_opt l); inversion H; subst. simpl. f_equal; auto.
    - intros ->. apply collect_opt_Some.
  Qed.

  Lemma collect_opt_None {A} (l : list (option A)) : collect_opt l = None <-> In None l.
  Proof.
    induction l as [ | [a | ] l IH]; simpl; split; intros H; try discriminate; auto; try tauto.
    - destruct (collect_opt l); [discriminate | ]. right; tauto.
    - destruct H as [H | H]; [discriminate | ]. rewrite (proj2 IH H); auto.
  Qed.

  (* -------------------------------------------------------------- lengths *)
  Section Built.
    Variables (prs : list (pure_record K)) (bin : list (list T)).
    Let p := from_records_raw prs bin.
    Let n := List.length prs.

    Lemma fr_len_m : List.length (p_m p) = n.
    Proof. unfold p; simpl. rewrite !map_length; auto. Qed.
    Lemma fr_len_sigma : List.length (p_sigma p) = n.
    Proof. unfold p; simpl. rewrite !map_length; auto. Qed.
    Lemma fr_len_eps : List.length (p_epsilon_k p) = n.
    Proof. unfold p; simpl. rewrite !map_length; auto. Qed.
    Lemma fr_len_mw : List.length (p_molarweight p) = n.
    Proof. unfold p; simpl. rewrite !map_length; auto. Qed.
    Lemma fr_len_mu2 : List.length (p_mu2 p) = n.
    Proof. unfold p; simpl. apply mk1_length. Qed.
    Lemma fr_len_q2 : List.length (p_q2 p) = n.
    Proof. unfold p; simpl. apply mk1_length. Qed.
    Lemma fr_len_kab : List.length (p_kappa_ab p) = n.
    Proof. unfold p; simpl. rewrite !map_length; auto. Qed.

    (** scalar parameters of component i come from record i, with the documented defaults *)
    Variable d : pure_record K.
    Let rec (i : nat) := pr_model (nth i prs d).

    Lemma ix_rec (f : pcsaft_record K -> T) i : i < n -> ix (map f (map pr_model prs)) i = f (rec i).
    Proof.
      intros. rewrite map_map. rewrite (ix_map (fun x => f (pr_model x)) prs i d) by auto. auto.
    Qed.
    Lemma fr_m i : i < n -> ix (p_m p) i = r_m (rec i).
    Proof. apply ix_rec. Qed.
    Lemma fr_sigma i : i < n -> ix (p_sigma p) i = r_sigma (rec i).
    Proof. apply ix_rec. Qed.
    Lemma fr_eps i : i < n -> ix (p_epsilon_k p) i = r_epsilon_k (rec i).
    Proof. apply ix_rec. Qed.
    Lemma fr_mu i : i < n -> ix (p_mu p) i = unwrap_or (r_mu (rec i)) n0.
    Proof. apply (ix_rec (fun r => unwrap_or (r_mu r) n0)). Qed.
    Lemma fr_q i : i < n -> ix (p_q p) i = unwrap_or (r_q (rec i)) n0.
    Proof. apply (ix_rec (fun r => unwrap_or (r_q r) n0)). Qed.
    Lemma fr_na i : i < n -> ix (p_na p) i = unwrap_or (r_na (rec i)) n1.
    Proof. apply (ix_rec (fun r => unwrap_or (r_na r) n1)). Qed.
    Lemma fr_nb i : i < n -> ix (p_nb p) i = unwrap_or (r_nb (rec i)) n1.
    Proof. apply (ix_rec (fun r => unwrap_or (r_nb r) n1)). Qed.
    Lemma fr_kab i : i < n -> ix (p_kappa_ab p) i = unwrap_or (r_kappa_ab (rec i)) n0.
    Proof. apply (ix_rec (fun r => unwrap_or (r_kappa_ab r) n0)). Qed.
    Lemma fr_eab i : i < n -> ix (p_epsilon_k_ab p) i = unwrap_or (r_epsilon_k_ab (rec i)) n0.
    Proof. apply (ix_rec (fun r => unwrap_or (r_epsilon_k_ab r) n0)). Qed.
    Lemma fr_mw i : i < n -> ix (p_molarweight p) i = pr_molarweight (nth i prs d).
    Proof. intros. unfold p; simpl. apply (ix_map pr_molarweight); auto. Qed.
    Lemma fr_mu2 i : i < n ->
      ix (p_mu2 p) i = mu2_of (ix (p_mu p) i) (ix (p_m p) i) (ix (p_sigma p) i) (ix (p_epsilon_k p) i).
    Proof. intros. unfold p; simpl. rewrite ix_mk1; auto. Qed.
    Lemma fr_q2 i : i < n ->
      ix (p_q2 p) i = q2_of (ix (p_q p) i) (ix (p_m p) i) (ix (p_sigma p) i) (ix (p_epsilon_k p) i).
    Proof. intros. unfold p; simpl. rewrite ix_mk1; auto. Qed.

    Local Open Scope num_scope.
    Lemma fr_sigma_ij i j : (i < n)%nat -> (j < n)%nat ->
      ix2 (p_sigma_ij p) i j = $0.5 * (ix (p_sigma p) i + ix (p_sigma p) j).
    Proof. intros. unfold p; simpl. rewrite ix2_mk2; auto. Qed.
    Lemma fr_e_k_ij i j : (i < n)%nat -> (j < n)%nat ->
      ix2 (p_e_k_ij p) i j = nsqrt (ix (p_epsilon_k p) i * ix (p_epsilon_k p) j).
    Proof. intros. unfold p; simpl. rewrite ix2_mk2; auto. Qed.
    Lemma fr_epsilon_k_ij i j : (i < n)%nat -> (j < n)%nat ->
      ix2 (p_epsilon_k_ij p) i j
      = ($1 - ix2 bin i j) * nsqrt (ix (p_epsilon_k p) i * ix (p_epsilon_k p) j).
    Proof. intros. unfold p; simpl. rewrite ix2_mk2; auto. Qed.
    Lemma fr_kappa_aibj i j : (i < n)%nat -> (j < n)%nat ->
      ix2 (p_kappa_aibj p) i j =
      if existsb (Nat.eqb i) (p_assoc_comp p) && existsb (Nat.eqb j) (p_assoc_comp p)
      then nsqrt (ix (p_kappa_ab p) i * ix (p_kappa_ab p) j)
           * npowf ($2 * nsqrt (ix (p_sigma p) i * ix (p_sigma p) j)
                    / (ix (p_sigma p) i + ix (p_sigma p) j)) ($3)
      else n0.
    Proof. intros. unfold p; simpl. rewrite ix2_mk2; auto. Qed.
    Lemma fr_epsilon_k_aibj i j : (i < n)%nat -> (j < n)%nat ->
      ix2 (p_epsilon_k_aibj p) i j =
      if existsb (Nat.eqb i) (p_assoc_comp p) && existsb (Nat.eqb j) (p_assoc_comp p)
      then $0.5 * (ix (p_epsilon_k_ab p) i + ix (p_epsilon_k_ab p) j) else n0.
    Proof. intros. unfold p; simpl. rewrite ix2_mk2; auto. Qed.
  End Built.

  (* ---------------------------------------------------------- index sets *)
  Definition nonzero (x : T) : bool := (n0 <? nabs x)%num.

  Lemma nonzero_comp_in (l : list T) i :
    In i (nonzero_comp l) <-> i < List.length l /\ nonzero (ix l i) = true.
  Proof. unfold nonzero_comp. rewrite filter_In, in_seq. intuition lia. Qed.

  Lemma seq_sorted s n : StronglySorted lt (seq s n).
  Proof.
    revert s; induction n; simpl; intros; constructor; auto.
    apply Forall_forall. intros x Hx. apply in_seq in Hx. lia.
  Qed.
  Lemma filter_sorted (q : nat -> bool) l : StronglySorted lt l -> StronglySorted lt (filter q l).
  Proof.
    induction 1; simpl; [constructor | ]. destruct (q a); auto.
    constructor; auto. apply Forall_forall. intros x Hx. apply filter_In in Hx.
    rewrite Forall_forall in H0. apply H0; tauto.
  Qed.
  Lemma nonzero_comp_sorted (l : list T) : StronglySorted lt (nonzero_comp l).
  Proof. apply filter_sorted, seq_sorted. Qed.
  Lemma sorted_nodup (l : list nat) : StronglySorted lt l -> NoDup l.
  Proof.
    induction 1; constructor; auto. rewrite Forall_forall in H0.
    intros Hi; specialize (H0 _ Hi); lia.
  Qed.
  Lemma nonzero_comp_nodup (l : list T) : NoDup (nonzero_comp l).
  Proof. apply NoDup_filter, seq_NoDup. Qed.

  Lemma existsb_eqb i l : existsb (Nat.eqb i) l = true <-> In i l.
  Proof.
    rewrite existsb_exists. split.
    - intros (x & Hx & E). apply Nat.eqb_eq in E; subst; auto.
    - intros H; exists i; split; auto. apply Nat.eqb_refl.
  Qed.

  (* ------------------------------------------------------------- lumping *)

  (** [p] describes a mixture whose component i is component [nth i phi] of [p'] *)
  Record lumped (p p' : P) (phi : list nat) : Prop := mkLumped {
    lu_n : List.length (p_m p) = List.length phi;
    lu_ns : List.length (p_sigma p) = List.length phi;
    lu_ns' : List.length (p_sigma p') = List.length (p_m p');
    lu_in : forall i, i < List.length phi -> nth i phi 0 < List.length (p_m p');
    lu_m : forall i, i < List.length phi -> ix (p_m p) i = ix (p_m p') (nth i phi 0);
    lu_sigma : forall i, i < List.length phi -> ix (p_sigma p) i = ix (p_sigma p') (nth i phi 0);
    lu_eps : forall i, i < List.length phi -> ix (p_epsilon_k p) i = ix (p_epsilon_k p') (nth i phi 0);
    lu_mu2 : forall i, i < List.length phi -> ix (p_mu2 p) i = ix (p_mu2 p') (nth i phi 0);
    lu_q2 : forall i, i < List.length phi -> ix (p_q2 p) i = ix (p_q2 p') (nth i phi 0);
    lu_na : forall i, i < List.length phi -> ix (p_na p) i = ix (p_na p') (nth i phi 0);
    lu_nb : forall i, i < List.length phi -> ix (p_nb p) i = ix (p_nb p') (nth i phi 0);
    lu_kab : forall i, i < List.length phi -> ix (p_kappa_ab p) i = ix (p_kappa_ab p') (nth i phi 0);
    lu_eab : forall i, i < List.length phi -> ix (p_epsilon_k_ab p) i = ix (p_epsilon_k_ab p') (nth i phi 0);
    lu_k_ij : forall i j, i < List.length phi -> j < List.length phi ->
      ix2 (p_k_ij p) i j = ix2 (p_k_ij p') (nth i phi 0) (nth j phi 0);
    lu_sigma_ij : forall i j, i < List.length phi -> j < List.length phi ->
      ix2 (p_sigma_ij p) i j = ix2 (p_sigma_ij p') (nth i phi 0) (nth j phi 0);
    lu_e_k_ij : forall i j, i < List.length phi -> j < List.length phi ->
      ix2 (p_e_k_ij p) i j = ix2 (p_e_k_ij p') (nth i phi 0) (nth j phi 0);
    lu_epsilon_k_ij : forall i j, i < List.length phi -> j < List.length phi ->
      ix2 (p_epsilon_k_ij p) i j = ix2 (p_epsilon_k_ij p') (nth i phi 0) (nth j phi 0);
    lu_kappa_aibj : forall i j, i < List.length phi -> j < List.length phi ->
      ix2 (p_kappa_aibj p) i j = ix2 (p_kappa_aibj p') (nth i phi 0) (nth j phi 0);
    lu_epsilon_k_aibj : forall i j, i < List.length phi -> j < List.length phi ->
      ix2 (p_epsilon_k_aibj p) i j = ix2 (p_epsilon_k_aibj p') (nth i phi 0) (nth j phi 0);
    lu_dip : p_dipole_comp p = filter (fun i => nonzero (ix (p_mu2 p) i)) (seq 0 (List.length phi));
    lu_dip' : p_dipole_comp p' = filter (fun i => nonzero (ix (p_mu2 p') i)) (seq 0 (List.length (p_m p')));
    lu_quad : p_quadpole_comp p = filter (fun i => nonzero (ix (p_q2 p) i)) (seq 0 (List.length phi));
    lu_quad' : p_quadpole_comp p' = filter (fun i => nonzero (ix (p_q2 p') i)) (seq 0 (List.length (p_m p')));
    lu_ass : p_assoc_comp p = filter (fun i => nonzero (ix (p_kappa_ab p) i)) (seq 0 (List.length phi));
    lu_ass' : p_assoc_comp p' = filter (fun i => nonzero (ix (p_kappa_ab p') i)) (seq 0 (List.length (p_m p')));
    lu_nd : p_ndipole p = List.length (p_dipole_comp p) /\ p_ndipole p' = List.length (p_dipole_comp p');
    lu_nq : p_nquadpole p = List.length (p_quadpole_comp p) /\ p_nquadpole p' = List.length (p_quadpole_comp p');
    lu_nass : p_nassoc p = List.length (p_assoc_comp p) /\ p_nassoc p' = List.length (p_assoc_comp p') }.

  Lemma subset_records_spec (prs : list (pure_record K)) l r :
    subset_records prs l = Some r ->
    List.length r = List.length l /\
    forall i d, i < List.length l -> nth i l 0 < List.length prs /\ nth i r d = nth (nth i l 0) prs d.
  Proof.
    unfold subset_records. rewrite collect_opt_spec.
    revert r; induction l as [ | a l IH]; simpl; intros [ | x r] H; try discriminate.
    - split; auto. intros; lia.
    - simpl in H. injection H as H0 H1. destruct (IH _ H1) as [E F].
      split; [simpl; lia | ]. intros [ | i] d Hi; simpl.
      + split; [apply nth_error_Some; congruence | ].
        symmetry. apply nth_error_nth; auto.
      + apply F; simpl in *; lia.
  Qed.

  Lemma subset_records_Some (prs : list (pure_record K)) l :
    (forall i, In i l -> i < List.length prs) -> exists r, subset_records prs l = Some r.
  Proof.
    intros H. unfold subset_records.
    destruct (collect_opt _) eqn:E; [eauto | ]. apply collect_opt_None in E.
    apply in_map_iff in E. destruct E as (i & E & Hi). apply nth_error_None in E.
    specialize (H _ Hi); lia.
  Qed.

  Lemma subset_binary_ix (bin : list (list T)) l i j : i < List.length l -> j < List.length l ->
    ix2 (subset_binary bin l) i j = ix2 bin (nth i l 0) (nth j l 0).
  Proof.
    intros. unfold subset_binary. unfold ix2 at 1.
    rewrite (nth_indep _ nil (map (fun j => ix2 bin 0 j) l)) by (rewrite map_length; auto).
    rewrite (map_nth (fun i => map (fun j => ix2 bin i j) l)).
    rewrite (nth_indep _ n0 (ix2 bin (nth i l 0) 0)) by (rewrite map_length; auto).
    rewrite (map_nth (fun j => ix2 bin (nth i l 0) j)). auto.
  Qed.

  Lemma subset_binary_ok (bin : list (list T)) l : binary_ok (List.length l) (subset_binary bin l) = true.
  Proof.
    unfold binary_ok, subset_binary. rewrite map_length, Nat.leb_refl. simpl.
    apply forallb_forall. intros x Hx. apply in_map_iff in Hx. destruct Hx as (i & <- & _).
    rewrite map_length. apply Nat.leb_refl.
  Qed.

  Definition default_rec : pcsaft_record K :=
    mkRec n0 n0 n0 None None None None None None None None None.
  Definition default_pure : pure_record K :=
    mkPure (mkIdent None None None None None None) n0 default_rec None.

  (** the parameters of a subset describe the lumped mixture *)
  Theorem subset_lumped prs bin (p' p : P) l :
    from_records prs bin = Some p' -> subset p' l = Some p -> lumped p p' l.
  Proof.
    intros H' H. apply from_records_raw_of in H'. unfold subset in H.
    replace (fst (records p')) with prs in H by (subst; reflexivity).
    replace (snd (records p')) with bin in H by (subst; reflexivity).
    destruct (subset_records prs l) as [r | ] eqn:E; [ | discriminate].
    apply from_records_raw_of in H.
    destruct (subset_records_spec _ _ _ E) as [Hl Hn].
    assert (Hin : forall i, i < List.length l -> nth i l 0 < List.length prs)
      by (intros; apply (Hn i default_pure); auto).
    set (d := default_pure) in *.
    assert (Hrec : forall i, i < List.length l -> nth i r d = nth (nth i l 0) prs d)
      by (intros; apply Hn; auto).
    subst p p'.
    assert (M : forall (f : pcsaft_record K -> T) i, i < List.length l ->
      ix (map f (map pr_model r)) i = ix (map f (map pr_model prs)) (nth i l 0)).
    { intros f i Hi. rewrite (ix_rec r d), (ix_rec prs d); try lia; auto.
      rewrite Hrec; auto. }
    set (p := from_records_raw r (subset_binary bin l)).
    set (p' := from_records_raw prs bin).
    assert (Lm : List.length (p_m p') = List.length prs) by apply fr_len_m.
    assert (Hm : forall i, i < List.length l -> ix (p_m p) i = ix (p_m p') (nth i l 0)) by (apply (M r_m)).
    assert (Hs : forall i, i < List.length l -> ix (p_sigma p) i = ix (p_sigma p') (nth i l 0)) by (apply (M r_sigma)).
    assert (He : forall i, i < List.length l -> ix (p_epsilon_k p) i = ix (p_epsilon_k p') (nth i l 0)) by (apply (M r_epsilon_k)).
    assert (Hmu : forall i, i < List.length l -> ix (p_mu p) i = ix (p_mu p') (nth i l 0))
      by (apply (M (fun r => unwrap_or (r_mu r) n0))).
    assert (Hq : forall i, i < List.length l -> ix (p_q p) i = ix (p_q p') (nth i l 0))
      by (apply (M (fun r => unwrap_or (r_q r) n0))).
    assert (Hk : forall i, i < List.length l -> ix (p_kappa_ab p) i = ix (p_kappa_ab p') (nth i l 0))
      by (apply (M (fun r => unwrap_or (r_kappa_ab r) n0))).
    assert (Hea : forall i, i < List.length l -> ix (p_epsilon_k_ab p) i = ix (p_epsilon_k_ab p') (nth i l 0))
      by (apply (M (fun r => unwrap_or (r_epsilon_k_ab r) n0))).
    assert (Lk : List.length (p_kappa_ab p) = List.length l) by (unfold p; rewrite fr_len_kab; auto).
    assert (Lk' : List.length (p_kappa_ab p') = List.length prs) by apply fr_len_kab.
    assert (Hass : forall i, i < List.length l ->
      existsb (Nat.eqb i) (p_assoc_comp p) = existsb (Nat.eqb (nth i l 0)) (p_assoc_comp p')).
    { intros i Hi.
      apply Bool.eq_iff_eq_true. rewrite !existsb_eqb.
      change (p_assoc_comp p) with (nonzero_comp (p_kappa_ab p)).
      change (p_assoc_comp p') with (nonzero_comp (p_kappa_ab p')).
      rewrite !nonzero_comp_in, Lk, Lk', Hk by auto. specialize (Hin i Hi). tauto. }
    constructor; auto.
    - unfold p; rewrite fr_len_m; auto.
    - unfold p; rewrite fr_len_sigma; auto.
    - unfold p'; rewrite fr_len_sigma, fr_len_m; auto.
    - intros; rewrite Lm; auto.
    - intros i Hi. unfold p, p'. rewrite !fr_mu2 by (auto; lia). fold p p'.
      rewrite Hmu, Hm, Hs, He; auto.
    - intros i Hi. unfold p, p'. rewrite !fr_q2 by (auto; lia). fold p p'.
      rewrite Hq, Hm, Hs, He; auto.
    - apply (M (fun r => unwrap_or (r_na r) n1)).
    - apply (M (fun r => unwrap_or (r_nb r) n1)).
    - intros i j Hi Hj. apply (subset_binary_ix bin l i j); auto.
    - intros i j Hi Hj. unfold p, p'. rewrite !fr_sigma_ij by (auto; lia). fold p p'.
      rewrite !Hs; auto.
    - intros i j Hi Hj. unfold p, p'. rewrite !fr_e_k_ij by (auto; lia). fold p p'.
      rewrite !He; auto.
    - intros i j Hi Hj. unfold p, p'. rewrite !fr_epsilon_k_ij by (auto; lia). fold p p'.
      rewrite !He, subset_binary_ix; auto.
    - intros i j Hi Hj. unfold p, p'. rewrite !fr_kappa_aibj by (auto; lia). fold p p'.
      rewrite !Hs, !Hk, !Hass; auto.
    - intros i j Hi Hj. unfold p, p'. rewrite !fr_epsilon_k_aibj by (auto; lia). fold p p'.
      rewrite !Hea, !Hass; auto.
    - change (p_dipole_comp p) with (nonzero_comp (p_mu2 p)). unfold nonzero_comp.
      unfold p at 2; rewrite fr_len_mu2, Hl; auto.
    - change (p_dipole_comp p') with (nonzero_comp (p_mu2 p')). unfold nonzero_comp.
      unfold p' at 2; rewrite fr_len_mu2, Lm; auto.
    - change (p_quadpole_comp p) with (nonzero_comp (p_q2 p)). unfold nonzero_comp.
      unfold p at 2; rewrite fr_len_q2, Hl; auto.
    - change (p_quadpole_comp p') with (nonzero_comp (p_q2 p')). unfold nonzero_comp.
      unfold p' at 2; rewrite fr_len_q2, Lm; auto.
    - change (p_assoc_comp p) with (nonzero_comp (p_kappa_ab p)). unfold nonzero_comp.
      rewrite Lk; auto.
    - change (p_assoc_comp p') with (nonzero_comp (p_kappa_ab p')). unfold nonzero_comp.
      rewrite Lk', Lm; auto.
  Qed.
End Facts.
