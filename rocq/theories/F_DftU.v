(** Weighted densities of a uniform fluid in dual numbers, and the contributions of the
    functional evaluated there. *)
From Coq Require Import ZArith QArith Reals Lra Lia List Bool.
From Verif Require Import Num RNum RSum Tables M_Params F_Params M_Eos M_Dft Spec F_Spec F_SpecAssoc
  F_Contrib F_Cross F_Transfer F_TransferS XNum DNum F_Level P_Dual F_Dft F_DftT F_DftT2 F_DftT3.
Import ListNotations.
Local Open Scope R_scope.
Set Bullet Behavior "Strict Subproofs".

Section Lrel.
  Context {Pt : Type} {K : Num} {x0 : Pt} (TR : Transfer K x0).
  Lemma lrel_ext fl gl l : (forall x, fl x = gl x) -> lrel TR fl l -> lrel TR gl l.
  Proof. intros E (fs & F & H). exists fs. split; auto. intros x. rewrite <- E. apply F. Qed.
  Lemma lrel_sing f a : rel TR f a -> lrel TR (fun x => [f x]) [a].
  Proof. intros H. apply (lrel_cons TR); auto. apply (lrel_nil TR). Qed.
End Lrel.

Section Weights.
  Context {Pt : Type} {K : Num} {x0 : Pt} (TR : Transfer K x0).
  Notation rl := (rel TR).
  Lemma T_shape s f a : rl f a -> rl (fun x => @shape_integral RNum s (f x)) (shape_integral s a).
  Proof. intros H. destruct s; unfold shape_integral, frac_pi_3; tr TR; rn; lra. Qed.
  Lemma shape_nz s (r : R) : s <> DeltaVec -> 0 < r -> @shape_integral RNum s r <> 0.
  Proof.
    intros Hs Hr. pose proof PI_RGT_0. unfold shape_integral, frac_pi_3. destruct s; [ | | congruence]; rn; apply Rgt_not_eq; unfold Rgt.
    - apply Rmult_lt_0_compat; [nra | lra].
    - apply Rmult_lt_0_compat; [ | lra]. apply Rmult_lt_0_compat; [ | lra]. apply Rmult_lt_0_compat; auto. nra.
  Qed.
  Lemma T_scaled s fl l i : lrel TR fl l -> (i < length l)%nat -> s <> DeltaVec -> 0 < @ix RNum (fl x0) i ->
    rl (fun x => @bulk_weight RNum (@wf_scaled RNum (fl x) s) i) (bulk_weight (wf_scaled l s) i).
  Proof.
    intros H Hi Hs Hp. unfold bulk_weight, wf_scaled. cbn [wf_prefactor wf_radius wf_sh].
    apply (tr_mul _ _ TR); [ | apply T_shape; apply (tr_ix TR); auto].
    apply (rel_eq TR (fun x => @nrecip RNum (@shape_integral RNum s (@ix RNum (fl x) i)))).
    - intros x. rewrite (ix_map (K := RNum) _ _ _ 0); [reflexivity | ]. rewrite <- (lrel_length TR _ _ x H) in Hi. exact Hi.
    - rewrite (ix_map (K := K) _ _ _ n0) by auto. apply (tr_recip _ _ TR); [apply T_shape; apply (tr_ix TR); auto | apply shape_nz; auto].
  Qed.
  Lemma T_weight s fl l gl g i : rl (fun x => @ix RNum (fl x) i) (ix l i) -> lrel TR gl g ->
    rl (fun x => @bulk_weight RNum (mkWF (K := RNum) (fl x) (gl x) s) i) (bulk_weight (mkWF l g s) i).
  Proof.
    intros H G. unfold bulk_weight. cbn [wf_prefactor wf_radius wf_sh].
    apply (tr_mul _ _ TR); auto. apply T_shape; apply (tr_ix TR); auto.
  Qed.
End Weights.

Section Uniform.
  Variable p : params RNum.
  Hypothesis W : wfp p.
  Hypothesis Hph : phys p.
  Variable k : nat.
  Let TR : Transfer (lK (dual k)) (lz (dual k)) := TRn k.
  Notation rl := (rel TR).
  Notation x0 := (lz (dual k)).
  Let q : params (lK (dual k)) := plift (emb TR) p.
  Let n := length (p_m p).
  Variables (t : pt k -> R) (t2 : car (lK (dual k))).
  Variables (r : pt k -> list R) (r2 : list (car (lK (dual k)))).
  Hypothesis Tt : rl t t2.
  Hypothesis Tr : lrel TR r r2.
  Hypothesis Ht : 0 < t x0.
  Hypothesis Lr : length r2 = n.
  Let Lrx x : length (r x) = n.
  Proof. rewrite (lrel_length TR _ _ x Tr). exact Lr. Qed.
  Let Ths : lrel TR (fun x => @hs_diameter RNum p (t x)) (hs_diameter q t2) := T_hs p k t t2 Tt Ht.
  Let Tseg : lrel TR (fun x => @seg_radius RNum p (t x)) (seg_radius q t2) := T_seg p k t t2 Tt Ht.
  Let hs_p := hs_p p W Hph k t Ht.
  Let seg_p := seg_p p W Hph k t Ht.
  Let Lhsx (x : pt k) : length (@hs_diameter RNum p (t x)) = n.
  Proof. unfold hs_diameter. rewrite mk1_length. exact (w_ns _ W). Qed.
  Let Lhs : length (hs_diameter q t2) = n.
  Proof. etransitivity; [symmetry; exact (lrel_length TR _ _ x0 Ths) | apply Lhsx]. Qed.
  Let Lseg : length (seg_radius q t2) = n.
  Proof. unfold seg_radius. rewrite map_length. exact Lhs. Qed.

  Lemma U_row (b : nat -> pt k -> R) b2 : (forall i, (i < n)%nat -> rl (b i) (b2 i)) ->
    lrel TR (fun x => mk1 n (fun i => @nmul RNum (b i x) (@ix RNum (r x) i))) (mk1 n (fun i => nmul (b2 i) (ix r2 i))).
  Proof.
    intros H. apply (lrel_mk1 TR n (fun i x => @nmul RNum (b i x) (@ix RNum (r x) i))). intros i Hi.
    apply (tr_mul _ _ TR); auto. apply (tr_ix TR); auto.
  Qed.
  Lemma U_sum (b : nat -> pt k -> R) b2 : (forall i, (i < n)%nat -> rl (b i) (b2 i)) ->
    rl (fun x => @nsumi RNum n (fun i => @nmul RNum (b i x) (@ix RNum (r x) i))) (nsumi n (fun i => nmul (b2 i) (ix r2 i))).
  Proof.
    intros H. apply (tr_nsumi TR n (fun i x => @nmul RNum (b i x) (@ix RNum (r x) i))). intros i Hi.
    apply (tr_mul _ _ TR); auto. apply (tr_ix TR); auto.
  Qed.
  Lemma T_m i : rl (fun _ => @ix RNum (p_m p) i) (ix (p_m q) i).
  Proof. exact (tr_ix1 TR (p_m p) i). Qed.
  Lemma T_m8 i : rl (fun _ => @ix RNum (map (fun m => @ndiv RNum m (@nlit RNum 8%Q)) (p_m p)) i) (ix (map (fun m => ndiv m (nlit 8%Q)) (p_m q)) i).
  Proof.
    destruct (Nat.lt_ge_cases i n) as [Hi | Hi].
    - rewrite (ix_map (K := lK (dual k)) _ _ _ n0) by (change (p_m q) with (map (emb TR) (p_m p)); rewrite map_length; exact Hi).
      apply (rel_eq TR (fun _ => @ndiv RNum (@ix RNum (p_m p) i) (@nlit RNum 8%Q))).
      { intros _. rewrite (ix_map (K := RNum) _ _ _ 0) by exact Hi. reflexivity. }
      apply (tr_div _ _ TR); [apply T_m | apply (tr_lit _ _ TR) | rn; lra].
    - unfold ix. rewrite !nth_overflow by (rewrite ?map_length; change (p_m q) with (map (emb TR) (p_m p)); rewrite ?map_length; exact Hi).
      apply (tr_n0 TR).
  Qed.


  (** rows of scalar weights, sums of scalar weights *)
  Lemma U_chain dim : lrel TR (fun x => @bulk_wd RNum (chain_weight_functions p (t x)) dim (r x)) (bulk_wd (chain_weight_functions q t2) dim r2).
  Proof.
    set (w0 := fun x => @wf_scaled RNum (hs_diameter p (t x)) M_Dft.Delta).
    set (w0' := wf_scaled (hs_diameter q t2) M_Dft.Delta).
    set (w1 := fun x => mkWF (K := RNum) (mk1 n (fun i => @ndiv RNum (@ix RNum (p_m p) i) (@nmul RNum (@ix RNum (hs_diameter p (t x)) i) (@nlit RNum 8%Q)))) (hs_diameter p (t x)) Theta).
    set (w1' := mkWF (mk1 n (fun i => ndiv (ix (p_m q) i) (nmul (ix (hs_diameter q t2) i) (nlit 8%Q)))) (hs_diameter q t2) Theta).
    set (w2 := fun x => mkWF (K := RNum) (map (fun m => @ndiv RNum m (@nlit RNum 8%Q)) (p_m p)) (hs_diameter p (t x)) Theta).
    set (w2' := mkWF (map (fun m => ndiv m (nlit 8%Q)) (p_m q)) (hs_diameter q t2) Theta).
    assert (E : forall x, r x ++ mk1 n (fun i => @nmul RNum (@bulk_weight RNum (w0 x) i) (@ix RNum (r x) i))
       ++ [@nsumi RNum n (fun i => @nmul RNum (@bulk_weight RNum (w1 x) i) (@ix RNum (r x) i));
           @nsumi RNum n (fun i => @nmul RNum (@bulk_weight RNum (w2 x) i) (@ix RNum (r x) i))]
       = @bulk_wd RNum (chain_weight_functions p (t x)) dim (r x)).
    { intros x. unfold bulk_wd, chain_weight_functions. cbn [wi_local wi_comp wi_fmt filter is_vec wf_scaled wf_sh negb flat_map map].
      rewrite !app_nil_r. lenR. rewrite Lrx, Lhsx. cbn [app]. reflexivity. }
    assert (E2 : bulk_wd (chain_weight_functions q t2) dim r2 = r2 ++ mk1 n (fun i => nmul (bulk_weight w0' i) (ix r2 i))
       ++ [nsumi n (fun i => nmul (bulk_weight w1' i) (ix r2 i)); nsumi n (fun i => nmul (bulk_weight w2' i) (ix r2 i))]).
    { unfold bulk_wd, chain_weight_functions. cbn [wi_local wi_comp wi_fmt filter is_vec wf_scaled wf_sh negb flat_map map].
      rewrite !app_nil_r, Lr, Lhs. cbn [app]. reflexivity. }
    rewrite E2. apply (lrel_ext TR _ _ _ E). clear E E2.
    apply (lrel_app TR); [exact Tr | ]. apply (lrel_app TR); [ | apply (lrel_cons TR); [ | apply (lrel_sing TR)]].
    - apply (U_row (fun i x => @bulk_weight RNum (w0 x) i) (bulk_weight w0')). intros i Hi.
      apply (T_scaled TR M_Dft.Delta _ _ i Ths); [rewrite Lhs; exact Hi | discriminate | apply hs_p; exact Hi].
    - apply (U_sum (fun i x => @bulk_weight RNum (w1 x) i) (bulk_weight w1')). intros i Hi. unfold w1, w1'.
      apply (T_weight TR); [ | exact Ths].
      apply (rel_eq TR (fun x => @ndiv RNum (@ix RNum (p_m p) i) (@nmul RNum (@ix RNum (hs_diameter p (t x)) i) (@nlit RNum 8%Q)))).
      { intros x. rewrite (ix_mk1 (K := RNum)) by auto. reflexivity. }
      rewrite (ix_mk1 (K := lK (dual k))) by auto. pose proof (hs_p i Hi) as Hpp.
      apply (tr_div _ _ TR); [apply T_m | apply (tr_mul _ _ TR); [apply (tr_ix TR); exact Ths | apply (tr_lit _ _ TR)] | ].
      revert Hpp. generalize (@ix RNum (hs_diameter p (t x0)) i). intros d Hd. rn. change (car RNum) with R in *. lra.
    - apply (U_sum (fun i x => @bulk_weight RNum (w2 x) i) (bulk_weight w2')). intros i Hi. unfold w2, w2'.
      apply (T_weight TR); [ | exact Ths]. apply T_m8.
  Qed.
  Lemma U_att dim psi psi2 : rl (fun _ => psi) psi2 -> 0 < psi ->
    lrel TR (fun x => @bulk_wd RNum (@att_weight_functions RNum psi p (t x)) dim (r x)) (bulk_wd (att_weight_functions psi2 q t2) dim r2).
  Proof.
    intros Hpsi Hp0.
    set (d := fun x => map (fun d => @nmul RNum d psi) (@hs_diameter RNum p (t x))).
    set (d2 := map (fun d => nmul d psi2) (hs_diameter q t2)).
    assert (Td : lrel TR d d2).
    { apply (lrel_map TR (fun _ d => @nmul RNum d psi)); [exact Ths | ]. intros f a H. apply (tr_mul _ _ TR); auto. }
    assert (Ld : length d2 = n) by (unfold d2; rewrite map_length; exact Lhs).
    assert (E : forall x, mk1 n (fun i => @nmul RNum (@bulk_weight RNum (@wf_scaled RNum (d x) Theta) i) (@ix RNum (r x) i))
       = @bulk_wd RNum (@att_weight_functions RNum psi p (t x)) dim (r x)).
    { intros x. unfold bulk_wd, att_weight_functions. cbn [wi_local wi_comp wi_fmt filter is_vec wf_scaled wf_sh negb flat_map map].
      rewrite !app_nil_r. lenR. rewrite Lrx. cbn [app]. reflexivity. }
    assert (E2 : bulk_wd (att_weight_functions psi2 q t2) dim r2 = mk1 n (fun i => nmul (bulk_weight (wf_scaled d2 Theta) i) (ix r2 i))).
    { unfold bulk_wd, att_weight_functions. cbn [wi_local wi_comp wi_fmt filter is_vec wf_scaled wf_sh negb flat_map map].
      rewrite !app_nil_r, Lr. cbn [app]. reflexivity. }
    rewrite E2. apply (lrel_ext TR _ _ _ E). clear E E2.
    apply (U_row (fun i x => @bulk_weight RNum (@wf_scaled RNum (d x) Theta) i) (bulk_weight (wf_scaled d2 Theta))). intros i Hi.
    apply (T_scaled TR Theta d d2 i Td); [rewrite Ld; exact Hi | discriminate | ].
    unfold d. rewrite (ix_map (K := RNum) _ _ _ 0) by (lenR; rewrite Lhsx; exact Hi).
    apply Rmult_lt_0_compat; [apply (hs_p i Hi) | exact Hp0].
  Qed.
  Lemma U_assoc dim : lrel TR (fun x => @bulk_wd RNum (assoc_weight_functions p (t x)) dim (r x)) (bulk_wd (assoc_weight_functions q t2) dim r2).
  Proof.
    set (w0 := fun x => @wf_scaled RNum (seg_radius p (t x)) M_Dft.Delta).
    set (w0' := wf_scaled (seg_radius q t2) M_Dft.Delta).
    set (w1 := fun s x => mkWF (K := RNum) (p_m p) (seg_radius p (t x)) s).
    set (w1' := mkWF (p_m q) (seg_radius q t2)).
    assert (E : forall x, mk1 n (fun i => @nmul RNum (@bulk_weight RNum (w0 x) i) (@ix RNum (r x) i))
       ++ flat_map (fun _ => mk1 n (fun i => @nmul RNum (@bulk_weight RNum (w1 DeltaVec x) i) (@ix RNum (r x) i))) (seq 0 dim)
       ++ [@nsumi RNum n (fun i => @nmul RNum (@bulk_weight RNum (w1 Theta x) i) (@ix RNum (r x) i))]
       = @bulk_wd RNum (assoc_weight_functions p (t x)) dim (r x)).
    { intros x. unfold bulk_wd, assoc_weight_functions. cbn [wi_local wi_comp wi_fmt filter is_vec wf_scaled wf_sh negb flat_map map].
      rewrite !app_nil_r. lenR. rewrite Lrx. cbn [app]. reflexivity. }
    assert (E2 : bulk_wd (assoc_weight_functions q t2) dim r2 = mk1 n (fun i => nmul (bulk_weight w0' i) (ix r2 i))
       ++ flat_map (fun _ => mk1 n (fun i => nmul (bulk_weight (w1' DeltaVec) i) (ix r2 i))) (seq 0 dim)
       ++ [nsumi n (fun i => nmul (bulk_weight (w1' Theta) i) (ix r2 i))]).
    { unfold bulk_wd, assoc_weight_functions. cbn [wi_local wi_comp wi_fmt filter is_vec wf_scaled wf_sh negb flat_map map].
      rewrite !app_nil_r, Lr. cbn [app]. reflexivity. }
    rewrite E2. apply (lrel_ext TR _ _ _ E). clear E E2.
    assert (T1 : forall s i, rl (fun x => @bulk_weight RNum (w1 s x) i) (bulk_weight (w1' s) i)).
    { intros s i. unfold w1, w1'. apply (T_weight TR s (fun _ => p_m p)); [apply T_m | exact Tseg]. }
    apply (lrel_app TR); [ | apply (lrel_app TR); [ | apply (lrel_sing TR)]].
    - apply (U_row (fun i x => @bulk_weight RNum (w0 x) i) (bulk_weight w0')). intros i Hi.
      apply (T_scaled TR M_Dft.Delta _ _ i Tseg); [rewrite Lseg; exact Hi | discriminate | apply seg_p; exact Hi].
    - apply (lrel_flat_map TR (seq 0 dim) (fun _ x => mk1 n (fun i => @nmul RNum (@bulk_weight RNum (w1 DeltaVec x) i) (@ix RNum (r x) i)))). intros _ _.
      apply (U_row (fun i x => @bulk_weight RNum (w1 DeltaVec x) i) (bulk_weight (w1' DeltaVec))). auto.
    - apply (U_sum (fun i x => @bulk_weight RNum (w1 Theta x) i) (bulk_weight (w1' Theta))). auto.
  Qed.
  Lemma U_pure_fmt dim : lrel TR (fun x => @bulk_wd RNum (pure_fmt_weight_functions p (t x)) dim (r x)) (bulk_wd (pure_fmt_weight_functions q t2) dim r2).
  Proof.
    set (w1 := fun s x => mkWF (K := RNum) (p_m p) (seg_radius p (t x)) s).
    set (w1' := mkWF (p_m q) (seg_radius q t2)).
    assert (E : forall x, mk1 n (fun i => @nmul RNum (@bulk_weight RNum (w1 M_Dft.Delta x) i) (@ix RNum (r x) i))
       ++ mk1 n (fun i => @nmul RNum (@bulk_weight RNum (w1 Theta x) i) (@ix RNum (r x) i))
       ++ flat_map (fun _ => mk1 n (fun i => @nmul RNum (@bulk_weight RNum (w1 DeltaVec x) i) (@ix RNum (r x) i))) (seq 0 dim)
       = @bulk_wd RNum (pure_fmt_weight_functions p (t x)) dim (r x)).
    { intros x. unfold bulk_wd, pure_fmt_weight_functions. cbn [wi_local wi_comp wi_fmt filter is_vec wf_scaled wf_sh negb flat_map map].
      rewrite !app_nil_r. lenR. rewrite Lrx. cbn [app]. rewrite <- app_assoc. reflexivity. }
    assert (E2 : bulk_wd (pure_fmt_weight_functions q t2) dim r2 = mk1 n (fun i => nmul (bulk_weight (w1' M_Dft.Delta) i) (ix r2 i))
       ++ mk1 n (fun i => nmul (bulk_weight (w1' Theta) i) (ix r2 i))
       ++ flat_map (fun _ => mk1 n (fun i => nmul (bulk_weight (w1' DeltaVec) i) (ix r2 i))) (seq 0 dim)).
    { unfold bulk_wd, pure_fmt_weight_functions. cbn [wi_local wi_comp wi_fmt filter is_vec wf_scaled wf_sh negb flat_map map].
      rewrite !app_nil_r, Lr. cbn [app]. rewrite <- app_assoc. reflexivity. }
    rewrite E2. apply (lrel_ext TR _ _ _ E). clear E E2.
    assert (T1 : forall s i, rl (fun x => @bulk_weight RNum (w1 s x) i) (bulk_weight (w1' s) i)).
    { intros s i. unfold w1, w1'. apply (T_weight TR s (fun _ => p_m p)); [apply T_m | exact Tseg]. }
    apply (lrel_app TR); [ | apply (lrel_app TR)].
    - apply (U_row (fun i x => @bulk_weight RNum (w1 M_Dft.Delta x) i) (bulk_weight (w1' M_Dft.Delta))). auto.
    - apply (U_row (fun i x => @bulk_weight RNum (w1 Theta x) i) (bulk_weight (w1' Theta))). auto.
    - apply (lrel_flat_map TR (seq 0 dim) (fun _ x => mk1 n (fun i => @nmul RNum (@bulk_weight RNum (w1 DeltaVec x) i) (@ix RNum (r x) i)))). intros _ _.
      apply (U_row (fun i x => @bulk_weight RNum (w1 DeltaVec x) i) (bulk_weight (w1' DeltaVec))). auto.
  Qed.
  Lemma U_pure_chain dim : lrel TR (fun x => @bulk_wd RNum (pure_chain_weight_functions p (t x)) dim (r x)) (bulk_wd (pure_chain_weight_functions q t2) dim r2).
  Proof.
    set (w0 := fun x => @wf_scaled RNum (hs_diameter p (t x)) M_Dft.Delta).
    set (w0' := wf_scaled (hs_diameter q t2) M_Dft.Delta).
    set (w2 := fun x => mkWF (K := RNum) (map (fun m => @ndiv RNum m (@nlit RNum 8%Q)) (p_m p)) (hs_diameter p (t x)) Theta).
    set (w2' := mkWF (map (fun m => ndiv m (nlit 8%Q)) (p_m q)) (hs_diameter q t2) Theta).
    assert (E : forall x, r x ++ mk1 n (fun i => @nmul RNum (@bulk_weight RNum (w0 x) i) (@ix RNum (r x) i))
       ++ mk1 n (fun i => @nmul RNum (@bulk_weight RNum (w2 x) i) (@ix RNum (r x) i))
       = @bulk_wd RNum (pure_chain_weight_functions p (t x)) dim (r x)).
    { intros x. unfold bulk_wd, pure_chain_weight_functions. cbn [wi_local wi_comp wi_fmt filter is_vec wf_scaled wf_sh negb flat_map map].
      rewrite !app_nil_r. lenR. rewrite Lrx. reflexivity. }
    assert (E2 : bulk_wd (pure_chain_weight_functions q t2) dim r2 = r2 ++ mk1 n (fun i => nmul (bulk_weight w0' i) (ix r2 i))
       ++ mk1 n (fun i => nmul (bulk_weight w2' i) (ix r2 i))).
    { unfold bulk_wd, pure_chain_weight_functions. cbn [wi_local wi_comp wi_fmt filter is_vec wf_scaled wf_sh negb flat_map map].
      rewrite !app_nil_r, Lr. reflexivity. }
    rewrite E2. apply (lrel_ext TR _ _ _ E). clear E E2.
    apply (lrel_app TR); [exact Tr | ]. apply (lrel_app TR).
    - apply (U_row (fun i x => @bulk_weight RNum (w0 x) i) (bulk_weight w0')). intros i Hi.
      apply (T_scaled TR M_Dft.Delta _ _ i Ths); [rewrite Lhs; exact Hi | discriminate | apply hs_p; exact Hi].
    - apply (U_row (fun i x => @bulk_weight RNum (w2 x) i) (bulk_weight w2')). intros i Hi. unfold w2, w2'.
      apply (T_weight TR); [ | exact Ths]. apply T_m8.
  Qed.

  (** fundamental measure theory of mixtures and ideal chains *)
  Definition bulk_n3 (x : pt k) : R :=
    @nmul RNum (@nmul RNum (@nsumi RNum n (fun i => @nmul RNum (@nmul RNum (@nmul RNum (@nmul RNum (@ix RNum (r x) i) (@ix RNum (p_m p) i))
      (@ix RNum (seg_radius p (t x)) i)) (@ix RNum (seg_radius p (t x)) i)) (@ix RNum (seg_radius p (t x)) i))) (@nlit RNum 4%Q)) frac_pi_3.
  Lemma U_f3 f a : rl f a -> f x0 < 1 -> f x0 <> @n3_cutoff RNum -> rl (fun x => @fmt_f3 RNum (f x)) (fmt_f3 a).
  Proof.
    intros Tf H1 Hc3. unfold fmt_f3. assert (Hc : rl (fun _ => @n3_cutoff RNum) n3_cutoff) by apply (tr_lit _ _ TR).
    apply (tr_br _ _ TR f (fun _ => @n3_cutoff RNum) (fun x => @fmt_f3_taylor RNum (f x)) (fun x => @fmt_f3_raw RNum (f x))).
    - exact (sep_br k _ _ _ _ Tf Hc Hc3).
    - rewrite (tr_ltb _ _ TR _ _ _ _ Tf Hc). change (@nltb RNum) with Rltb. destruct (Rltb _ _) eqn:E.
      + unfold fmt_f3_taylor. tr TR. all: rn; lra.
      + apply Rltb_false in E. rewrite n3_cutoff_R in E. unfold fmt_f3_raw. cbn zeta. tr TR. all: rn; lra.
  Qed.
  Lemma U_fmt : bulk_n3 x0 < 1 -> bulk_n3 x0 <> @n3_cutoff RNum ->
    rl (fun x => @ext_fmt_bulk RNum p (t x) (r x)) (ext_fmt_bulk q t2 r2).
  Proof.
    intros H1 Hc.
    assert (Lq : length (p_m q) = n) by apply map_length.
    assert (Ts : forall i, rl (fun x => @ix RNum (seg_radius p (t x)) i) (ix (seg_radius q t2) i)) by (intros i; apply (tr_ix TR); exact Tseg).
    assert (Trr : forall i, rl (fun x => @ix RNum (r x) i) (ix r2 i)) by (intros i; apply (tr_ix TR); exact Tr).
    assert (Tf : rl (fun _ => @frac_pi_3 RNum) frac_pi_3) by (unfold frac_pi_3; tr TR; rn; lra).
    assert (T3 : rl bulk_n3 (nmul (nmul (nsumi n (fun i => nmul (nmul (nmul (nmul (ix r2 i) (ix (p_m q) i)) (ix (seg_radius q t2) i)) (ix (seg_radius q t2) i)) (ix (seg_radius q t2) i))) (nlit 4%Q)) frac_pi_3)).
    { unfold bulk_n3. apply (tr_mul _ _ TR); [ | exact Tf]. apply (tr_mul _ _ TR); [ | apply (tr_lit _ _ TR)].
      apply (tr_nsumi TR n (fun i x => @nmul RNum (@nmul RNum (@nmul RNum (@nmul RNum (@ix RNum (r x) i) (@ix RNum (p_m p) i))
      (@ix RNum (seg_radius p (t x)) i)) (@ix RNum (seg_radius p (t x)) i)) (@ix RNum (seg_radius p (t x)) i))). intros i _.
      apply (tr_mul _ _ TR); auto. apply (tr_mul _ _ TR); auto. apply (tr_mul _ _ TR); auto. apply (tr_mul _ _ TR); auto. apply T_m. }
    unfold ext_fmt_bulk. cbv zeta. rewrite Lq. fold n.
    set (w3' := nmul (nmul (nsumi n (fun i => nmul (nmul (nmul (nmul (ix r2 i) (ix (p_m q) i)) (ix (seg_radius q t2) i)) (ix (seg_radius q t2) i)) (ix (seg_radius q t2) i))) (nlit 4%Q)) frac_pi_3) in *.
    set (w3 := bulk_n3) in *.
    change (rl (fun x =>
      let w0 := @nsumi RNum n (fun i => @nmul RNum (@ix RNum (r x) i) (@ix RNum (p_m p) i)) in
      let w1 := @nsumi RNum n (fun i => @nmul RNum (@nmul RNum (@ix RNum (r x) i) (@ix RNum (p_m p) i)) (@ix RNum (seg_radius p (t x)) i)) in
      let w2 := @nmul RNum (@nmul RNum (@nsumi RNum n (fun i => @nmul RNum (@nmul RNum (@nmul RNum (@ix RNum (r x) i) (@ix RNum (p_m p) i)) (@ix RNum (seg_radius p (t x)) i)) (@ix RNum (seg_radius p (t x)) i))) (@nlit RNum 4%Q)) npi in
      @nadd RNum (@nadd RNum (@nopp RNum (@nmul RNum w0 (@nln1p RNum (@nopp RNum (w3 x))))) (@nmul RNum (@nmul RNum w1 w2) (@nrecip RNum (@nadd RNum (@nopp RNum (w3 x)) (@nlit RNum 1%Q)))))
        (@nmul RNum (@nmul RNum (@nmul RNum (@nmul RNum w2 w2) w2) pi36m1) (@fmt_f3 RNum (w3 x))))
      (nadd (nadd (nopp (nmul (nsumi n (fun i => nmul (ix r2 i) (ix (p_m q) i))) (nln1p (nopp w3'))))
        (nmul (nmul (nsumi n (fun i => nmul (nmul (ix r2 i) (ix (p_m q) i)) (ix (seg_radius q t2) i)))
                    (nmul (nmul (nsumi n (fun i => nmul (nmul (nmul (ix r2 i) (ix (p_m q) i)) (ix (seg_radius q t2) i)) (ix (seg_radius q t2) i))) (nlit 4%Q)) npi))
              (nrecip (nadd (nopp w3') (nlit 1%Q)))))
       (nmul (nmul (nmul (nmul (nmul (nmul (nsumi n (fun i => nmul (nmul (nmul (ix r2 i) (ix (p_m q) i)) (ix (seg_radius q t2) i)) (ix (seg_radius q t2) i))) (nlit 4%Q)) npi)
                         (nmul (nmul (nsumi n (fun i => nmul (nmul (nmul (ix r2 i) (ix (p_m q) i)) (ix (seg_radius q t2) i)) (ix (seg_radius q t2) i))) (nlit 4%Q)) npi))
                   (nmul (nmul (nsumi n (fun i => nmul (nmul (nmul (ix r2 i) (ix (p_m q) i)) (ix (seg_radius q t2) i)) (ix (seg_radius q t2) i))) (nlit 4%Q)) npi)) pi36m1) (fmt_f3 w3')))).
    assert (T0 : rl (fun x => @nsumi RNum n (fun i => @nmul RNum (@ix RNum (r x) i) (@ix RNum (p_m p) i))) (nsumi n (fun i => nmul (ix r2 i) (ix (p_m q) i)))).
    { apply (tr_nsumi TR n (fun i x => @nmul RNum (@ix RNum (r x) i) (@ix RNum (p_m p) i))). intros i _. apply (tr_mul _ _ TR); auto. apply T_m. }
    assert (T1 : rl (fun x => @nsumi RNum n (fun i => @nmul RNum (@nmul RNum (@ix RNum (r x) i) (@ix RNum (p_m p) i)) (@ix RNum (seg_radius p (t x)) i)))
                  (nsumi n (fun i => nmul (nmul (ix r2 i) (ix (p_m q) i)) (ix (seg_radius q t2) i)))).
    { apply (tr_nsumi TR n (fun i x => @nmul RNum (@nmul RNum (@ix RNum (r x) i) (@ix RNum (p_m p) i)) (@ix RNum (seg_radius p (t x)) i))). intros i _.
      apply (tr_mul _ _ TR); auto. apply (tr_mul _ _ TR); auto. apply T_m. }
    assert (T2 : rl (fun x => @nmul RNum (@nmul RNum (@nsumi RNum n (fun i => @nmul RNum (@nmul RNum (@nmul RNum (@ix RNum (r x) i) (@ix RNum (p_m p) i)) (@ix RNum (seg_radius p (t x)) i)) (@ix RNum (seg_radius p (t x)) i))) (@nlit RNum 4%Q)) npi)
                  (nmul (nmul (nsumi n (fun i => nmul (nmul (nmul (ix r2 i) (ix (p_m q) i)) (ix (seg_radius q t2) i)) (ix (seg_radius q t2) i))) (nlit 4%Q)) npi)).
    { apply (tr_mul _ _ TR); [ | apply (tr_pi _ _ TR)]. apply (tr_mul _ _ TR); [ | apply (tr_lit _ _ TR)].
      apply (tr_nsumi TR n (fun i x => @nmul RNum (@nmul RNum (@nmul RNum (@ix RNum (r x) i) (@ix RNum (p_m p) i)) (@ix RNum (seg_radius p (t x)) i)) (@ix RNum (seg_radius p (t x)) i))). intros i _.
      apply (tr_mul _ _ TR); auto. apply (tr_mul _ _ TR); auto. apply (tr_mul _ _ TR); auto. apply T_m. }
    cbv zeta. revert T0 T1 T2.
    generalize (nsumi n (fun i => nmul (ix r2 i) (ix (p_m q) i))) (nsumi n (fun i => nmul (nmul (ix r2 i) (ix (p_m q) i)) (ix (seg_radius q t2) i)))
      (nmul (nmul (nsumi n (fun i => nmul (nmul (nmul (ix r2 i) (ix (p_m q) i)) (ix (seg_radius q t2) i)) (ix (seg_radius q t2) i))) (nlit 4%Q)) npi).
    intros a0 a1 a2 T0 T1 T2.
    assert (Tp : rl (fun _ => @pi36m1 RNum) pi36m1).
    { unfold pi36m1. tr TR. pose proof PI_RGT_0. rn. lra. }
    apply (tr_add _ _ TR); [apply (tr_add _ _ TR) | ].
    - apply (tr_opp _ _ TR). apply (tr_mul _ _ TR); auto. apply (tr_ln1p _ _ TR); [apply (tr_opp _ _ TR); auto | rn; lra].
    - apply (tr_mul _ _ TR); [apply (tr_mul _ _ TR); auto | ]. apply (tr_recip _ _ TR); [apply (tr_add _ _ TR); [apply (tr_opp _ _ TR); auto | apply (tr_lit _ _ TR)] | rn; lra].
    - apply (tr_mul _ _ TR); [ | apply U_f3; auto]. apply (tr_mul _ _ TR); auto. apply (tr_mul _ _ TR); auto. apply (tr_mul _ _ TR); auto.
  Qed.
  Lemma U_ideal : (forall i, (i < n)%nat -> 0 < @ix RNum (r x0) i) ->
    rl (fun x => @ext_ideal_chain RNum p (r x)) (ext_ideal_chain q r2).
  Proof.
    intros Hr. assert (Lq : length (p_m q) = n) by apply map_length.
    unfold ext_ideal_chain. rewrite Lq. fold n.
    apply (tr_nsumi TR n (fun i x => @nmul RNum (@nmul RNum (@ix RNum (r x) i) (@nsub RNum (@ix RNum (p_m p) i) (@nlit RNum 1%Q)))
       (@nsub RNum (@nln RNum (@lambda_reg RNum (@ix RNum (r x) i))) (@nlit RNum 1%Q)))). intros i Hi.
    assert (Ti : rl (fun x => @ix RNum (r x) i) (ix r2 i)) by (apply (tr_ix TR); exact Tr).
    apply (tr_mul _ _ TR).
    - apply (tr_mul _ _ TR); auto. apply (tr_sub _ _ TR); [apply T_m | apply (tr_lit _ _ TR)].
    - apply (tr_sub _ _ TR); [ | apply (tr_lit _ _ TR)].
      specialize (Hr i Hi).
      eapply (rel_near (dual k)); [ | apply (tr_ln _ _ TR); [apply (T_lam k _ _ Ti) | apply lam_pos]].
      eapply near_imp; [ | apply (lam_plain k _ _ Ti); lra]. intros z Hz. rewrite Hz. reflexivity.
  Qed.
End Uniform.
