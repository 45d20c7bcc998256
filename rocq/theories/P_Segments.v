(** C22, C23: records assembled from segments (group contribution). *)
From Coq Require Import ZArith QArith Reals Lra Lia List Bool Permutation.
From Verif Require Import Num RNum RSum M_Params F_Params Samples.
Import ListNotations.
Local Open Scope R_scope.

Notation record := (pcsaft_record RNum).
Notation segments := (list (record * R)).

(** [tot f l]: the amount of [f] carried by the segments, with multiplicities *)
Definition tot (f : record -> R) (l : segments) : R := rsum l (fun s => f (fst s) * snd s).
(** same for an optional parameter; segments without it carry nothing *)
Definition tot_opt (f : record -> option R) (l : segments) : R :=
  tot (fun r => match f r with Some x => x | None => 0 end) l.
Definition carries {A} (f : record -> option A) (s : record * R) : Prop := f (fst s) <> None.

(* ------------------------------------------------------------ model in terms of totals *)

Lemma seg_m_R (l : segments) : @seg_m RNum l = tot r_m l.
Proof. unfold seg_m. rewrite nsum_R, rsum_map. reflexivity. Qed.
Lemma seg_sigma3_R (l : segments) : @seg_sigma3 RNum l = tot (fun r => r_m r * r_sigma r ^ 3) l.
Proof. unfold seg_sigma3. rewrite nsum_R, rsum_map. reflexivity. Qed.
Lemma seg_eps_R (l : segments) : @seg_eps RNum l = tot (fun r => r_m r * r_epsilon_k r) l.
Proof. unfold seg_eps. rewrite nsum_R, rsum_map. reflexivity. Qed.
Lemma seg_nt_R (l : segments) : @seg_nt RNum l = rsum l snd.
Proof. unfold seg_nt. rewrite nsum_R, rsum_map. reflexivity. Qed.

Definition has {A} (f : record -> option A) (s : record * R) : bool :=
  match f (fst s) with Some _ => true | None => false end.
Lemma has_true {A} (f : record -> option A) s : has f s = true <-> carries f s.
Proof. unfold has, carries. destruct (f (fst s)); split; intros; try congruence; auto. Qed.

Lemma seg_opt_R f (l : segments) : @seg_opt RNum f l = if existsb (has f) l then Some (tot_opt f l) else None.
Proof.
  unfold seg_opt. set (g := fun p : record * R => match f (fst p) with Some v => [v * snd p] | None => [] end).
  assert (G : forall m : segments, rsum (flat_map g m) (fun x => x) = tot_opt f m).
  { intros m. rewrite rsum_flat_map. unfold tot_opt, tot. apply rsum_ext. intros s _. unfold g.
    destruct (f (fst s)); cbn; ring. }
  assert (E : existsb (has f) l = negb (match flat_map g l with [] => true | _ => false end)).
  { induction l as [ | s l IH]; auto. cbn [existsb flat_map]. unfold has at 1, g at 1. destruct (f (fst s)); auto. }
  rewrite E. rewrite <- (G l). change (flat_map _ l) with (flat_map g l).
  destruct (flat_map g l) as [ | x m]; auto. cbn [reduce_add negb]. f_equal. apply fold_add_R.
Qed.

Lemma seg_opt_cases f (l : segments) :
  (existsb (has f) l = true /\ @seg_opt RNum f l = Some (tot_opt f l)) \/ (existsb (has f) l = false /\ @seg_opt RNum f l = None).
Proof. rewrite seg_opt_R. destruct (existsb (has f) l); auto. Qed.

Lemma seg_all_R {A} (f : record -> option A) (l : segments) : @seg_all RNum A f l = forallb (has f) l.
Proof. reflexivity. Qed.

Lemma existsb_perm {A} (f : A -> bool) l l' : Permutation l l' -> existsb f l = existsb f l'.
Proof. intros H. apply Bool.eq_iff_eq_true. rewrite !existsb_exists. split; intros (x & I & E); exists x; split; auto;
  [apply (Permutation_in x H) | apply (Permutation_in x (Permutation_sym H))]; auto. Qed.
Lemma forallb_perm {A} (f : A -> bool) l l' : Permutation l l' -> forallb f l = forallb f l'.
Proof. intros H. apply Bool.eq_iff_eq_true. rewrite !forallb_forall. split; intros G x I; apply G;
  [apply (Permutation_in x (Permutation_sym H)) | apply (Permutation_in x H)]; auto. Qed.

(* -------------------------------------------------------------------------------- C22 *)

(** conservation of segment number, segment volume and energy *)
Theorem C22_conservation (l : segments) :
  let r := from_segments l in
  0 < tot r_m l -> 0 < tot (fun s => r_m s * r_sigma s ^ 3) l ->
  r_m r = tot r_m l /\
  r_m r * r_sigma r ^ 3 = tot (fun s => r_m s * r_sigma s ^ 3) l /\
  r_m r * r_epsilon_k r = tot (fun s => r_m s * r_epsilon_k s) l.
Proof.
  intros r Hm Hs. unfold r. cbn [from_segments r_m r_sigma r_epsilon_k]. rewrite seg_m_R, seg_sigma3_R, seg_eps_R. rn.
  split; [reflexivity | ]. split.
  - rewrite Rcbrt_cube by (apply Rdiv_lt_0_compat; auto). field. lra.
  - field. lra.
Qed.

(** an optional parameter is present iff a segment carries it, and is then the total *)
Theorem C22_optional_parameters (l : segments) :
  let r := from_segments l in
  let ok (get : record -> option R) :=
    (get r <> None <-> exists s, In s l /\ carries get s) /\ (forall x, get r = Some x -> x = tot_opt get l) in
  ok r_mu /\ ok r_q /\ ok r_kappa_ab /\ ok r_epsilon_k_ab /\ ok r_na /\ ok r_nb.
Proof.
  intros r ok.
  assert (G : forall get : record -> option R, get r = seg_opt get l -> ok get).
  { intros get E. unfold ok. rewrite E. destruct (seg_opt_cases get l) as [[X ->] | [X ->]].
    - apply existsb_exists in X. destruct X as (s & I & X). apply has_true in X. split.
      + split; [intros _; exists s; auto | intros _; discriminate].
      + intros x Hx. injection Hx as <-. auto.
    - split; [ | intros x Hx; discriminate Hx]. split; [intros C; exfalso; apply C; reflexivity | ]. intros (s & I & C). apply has_true in C.
      assert (Y : existsb (has get) l = true) by (apply existsb_exists; eauto). destruct (Bool.eq_true_false_abs _ Y X). }
  repeat (split; [apply G; reflexivity | ]). apply G; reflexivity.
Qed.

(** transport coefficients are present iff every segment carries them *)
Theorem C22_transport_available (l : segments) :
  let r := from_segments l in
  let ok {A} (get : record -> option A) := get r <> None <-> forall s, In s l -> carries get s in
  ok r_viscosity /\ ok r_diffusion /\ ok r_thermal.
Proof.
  intros r ok.
  assert (G : forall A (get : record -> option A) (b : A), get r = (if @seg_all RNum A get l then Some b else None) -> @ok A get).
  { intros A get b E. unfold ok. rewrite E, seg_all_R. destruct (forallb (has get) l) eqn:X.
    - rewrite forallb_forall in X. split; [ | intros _; discriminate]. intros _ s I. apply has_true. auto.
    - split; [intros C; exfalso; apply C; reflexivity | ]. intros H. assert (Y : forallb (has get) l = true); [ | destruct (Bool.eq_true_false_abs _ Y X)].
      apply forallb_forall. intros s I. apply has_true. auto. }
  split; [eapply G; cbn [r from_segments r_viscosity seg_viscosity]; reflexivity | ].
  split; eapply G; reflexivity.
Qed.

(** The transport coefficients as totals: the first two viscosity coefficients are weighted with
    the segment volumes, the last two viscosity coefficients and the first three of thermal
    conductivity with the numbers of segments; the reference viscosity of the molecule has the
    square root of its segment number. *)
Theorem C22_transport_rules (l : segments) (a b c d : record -> R) :
  let vol (r : record) : R := r_m r * r_sigma r ^ 3 in
  ((forall s, In s l -> r_viscosity (fst s) = Some (a (fst s), b (fst s), c (fst s), d (fst s))) ->
   r_viscosity (from_segments l)
   = Some (tot (fun r => vol r * a r) l - ln (tot r_m l) / 2,
           tot (fun r => vol r * b r) l / Rpowf (tot vol l) (45 / 100),
           tot c l, tot d l)) /\
  ((forall s, In s l -> r_thermal (fst s) = Some (a (fst s), b (fst s), c (fst s), d (fst s))) ->
   r_thermal (from_segments l)
   = Some (tot a l, tot b l, tot c l, rsum l snd * rsum l (fun s => d (fst s)))).
Proof.
  intros vol.
  split; intros H.
  - cbn [from_segments r_viscosity]. unfold seg_viscosity. rewrite seg_all_R.
    replace (forallb (has r_viscosity) l) with true.
    2: { symmetry. apply forallb_forall. intros s Hs. unfold has. rewrite (H s Hs). auto. }
    rewrite !nsum_R, !rsum_map, seg_m_R, seg_sigma3_R. apply (f_equal (@Some (arr4 RNum))).
    repeat match goal with |- (_, _) = (_, _) => apply f_equal2 end.
    + unfold tot at 2. match goal with |- nsub ?x _ = _ => replace x with (tot (fun r => vol r * a r) l) end.
      * unfold tot. rn. lra.
      * unfold tot. apply rsum_ext. intros s Hs. cbv beta. change (car RNum) with R in *. rewrite (H s Hs). cbn [unwrap4]. unfold vol. rn. ring.
    + unfold Rdiv. unfold tot at 2. rewrite <- rsum_scal_r. apply rsum_ext. intros s Hs. cbv beta. change (car RNum) with R in *. rewrite (H s Hs). cbn [unwrap4].
      replace (@nlit RNum 0.45) with (45 / 100) by (rn; lra). unfold vol. rn. unfold Rdiv. ring.
    + unfold tot. apply rsum_ext. intros s Hs. cbv beta. change (car RNum) with R in *. rewrite (H s Hs). cbn [unwrap4]. rn. ring.
    + unfold tot. apply rsum_ext. intros s Hs. cbv beta. change (car RNum) with R in *. rewrite (H s Hs). cbn [unwrap4]. rn. ring.
  - cbn [from_segments r_thermal]. unfold seg_thermal. rewrite seg_all_R.
    replace (forallb (has r_thermal) l) with true.
    2: { symmetry. apply forallb_forall. intros s Hs. unfold has. rewrite (H s Hs). auto. }
    rewrite !nsum_R, !rsum_map, seg_nt_R. apply (f_equal (@Some (arr4 RNum))).
    repeat match goal with |- (_, _) = (_, _) => apply f_equal2 end.
    4: rewrite <- rsum_scal.
    all: unfold tot; apply rsum_ext; intros s Hs; cbv beta; change (car RNum) with R in *; rewrite (H s Hs); cbn [unwrap4]; rn; ring.
Qed.

(** the order of the segments does not matter *)
Theorem C22_order (l l' : segments) : Permutation l l' -> from_segments l = from_segments l'.
Proof.
  intros H.
  assert (T : forall f, tot f l = tot f l') by (intros f; apply rsum_perm; auto).
  assert (O : forall f, @seg_opt RNum f l = seg_opt f l').
  { intros f. rewrite !seg_opt_R. rewrite (existsb_perm _ _ _ H). unfold tot_opt. rewrite T. reflexivity. }
  assert (A : forall B (f : record -> option B), @seg_all RNum B f l = seg_all f l') by (intros; rewrite !seg_all_R; apply forallb_perm; auto).
  assert (S : forall f : record * R -> R, @nsum RNum (map f l) = @nsum RNum (map f l')).
  { intros f. rewrite !nsum_R, !rsum_map. apply rsum_perm. auto. }
  unfold from_segments. rewrite !seg_m_R, !seg_sigma3_R, !seg_eps_R, !O, !T. f_equal.
  - unfold seg_viscosity. rewrite A. destruct (seg_all r_viscosity l'); auto.
    rewrite !seg_m_R, !T, !seg_sigma3_R, !T. f_equal.
    repeat (apply f_equal2; [ | apply S]). apply f_equal2; [apply S | reflexivity].
  - unfold seg_diffusion. rewrite A. reflexivity.
  - unfold seg_thermal. rewrite A. destruct (seg_all r_thermal l'); auto. f_equal.
    rewrite !seg_nt_R. rewrite (rsum_perm l l' snd H). repeat (apply f_equal2; [ | apply S]). apply S.
Qed.

(** splitting (s, a+b) into (s, a) and (s, b) anywhere in the list *)
Definition split_seg (l1 l2 l3 : segments) (s : record) (a b : R) : segments := l1 ++ (s, a) :: l2 ++ (s, b) :: l3.
Definition join_seg (l1 l2 l3 : segments) (s : record) (a b : R) : segments := l1 ++ (s, a + b) :: l2 ++ l3.

Section Group.
  Variables (l1 l2 l3 : segments) (s : record) (a b : R).
  Notation L := (split_seg l1 l2 l3 s a b).
  Notation J := (join_seg l1 l2 l3 s a b).
  Lemma group_tot f : tot f L = tot f J.
  Proof. unfold tot, split_seg, join_seg. repeat (rewrite rsum_app || cbn [rsum]). cbn [fst snd]. ring. Qed.
  Lemma group_sum (f : record * R -> R) : (forall r x y, f (r, x + y) = f (r, x) + f (r, y)) ->
    @nsum RNum (map f L) = @nsum RNum (map f J).
  Proof.
    intros H. rewrite !nsum_R, !rsum_map. unfold split_seg, join_seg. repeat (rewrite rsum_app || cbn [rsum]). toR. rewrite H. ring.
  Qed.
  Lemma group_exists {A} (f : record -> option A) : existsb (has f) L = existsb (has f) J.
  Proof.
    unfold split_seg, join_seg. repeat (rewrite existsb_app || cbn [existsb]). unfold has. cbn [fst].
    destruct (f s); cbn; rewrite ?Bool.orb_true_r; auto.
  Qed.
  Lemma group_all {A} (f : record -> option A) : forallb (has f) L = forallb (has f) J.
  Proof.
    unfold split_seg, join_seg. repeat (rewrite forallb_app || cbn [forallb]). unfold has. cbn [fst].
    destruct (f s); cbn; rewrite ?Bool.andb_false_r; auto.
  Qed.

  (** every equation-of-state parameter of the record is independent of the grouping *)
  Theorem C22_grouping :
    let r := from_segments L in let r' := from_segments J in
    r_m r = r_m r' /\ r_sigma r = r_sigma r' /\ r_epsilon_k r = r_epsilon_k r' /\
    r_mu r = r_mu r' /\ r_q r = r_q r' /\ r_kappa_ab r = r_kappa_ab r' /\
    r_epsilon_k_ab r = r_epsilon_k_ab r' /\ r_na r = r_na r' /\ r_nb r = r_nb r'.
  Proof.
    intros r r'. unfold r, r', from_segments. cbn [r_m r_sigma r_epsilon_k r_mu r_q r_kappa_ab r_epsilon_k_ab r_na r_nb].
    rewrite !seg_m_R, !seg_sigma3_R, !seg_eps_R, !seg_opt_R. unfold tot_opt.
    rewrite !group_tot, !group_exists. repeat (split; [reflexivity | ]). reflexivity.
  Qed.

  (** so are viscosity and diffusion coefficients and the first three thermal-conductivity ones *)
  Theorem C23_grouping_partial :
    let r := from_segments L in let r' := from_segments J in
    r_viscosity r = r_viscosity r' /\ r_diffusion r = r_diffusion r' /\
    match r_thermal r, r_thermal r' with
    | Some (a0, a1, a2, a3), Some (b0, b1, b2, b3) => a0 = b0 /\ a1 = b1 /\ a2 = b2
    | None, None => True
    | _, _ => False
    end.
  Proof.
    intros r r'. unfold r, r', from_segments. cbn [r_viscosity r_diffusion r_thermal].
    split; [ | split].
    - unfold seg_viscosity. rewrite !seg_all_R, group_all. destruct (forallb _ _); auto.
      rewrite !seg_m_R, !seg_sigma3_R, !group_tot. f_equal.
      assert (S : forall f g : record * R -> R, (forall p, f p = g p) -> (forall r x y, f (r, x + y) = f (r, x) + f (r, y)) ->
        @nsum RNum (map f L) = @nsum RNum (map g J)).
      { intros f g E H. rewrite (group_sum f H). f_equal. apply map_ext. auto. }
      repeat (apply f_equal2; [ | apply S; [reflexivity | ]]).
      + apply f_equal2; [ | reflexivity]. apply S; [reflexivity | ]. intros q x y. cbn [fst snd].
        destruct (unwrap4 _) as [[[? ?] ?] ?]. rn. ring.
      + intros q x y. cbn [fst snd]. destruct (unwrap4 _) as [[[? ?] ?] ?]. rn. unfold Rdiv. ring.
      + intros q x y. cbn [fst snd]. destruct (unwrap4 _) as [[[? ?] ?] ?]. rn. ring.
      + intros q x y. cbn [fst snd]. destruct (unwrap4 _) as [[[? ?] ?] ?]. rn. ring.
    - unfold seg_diffusion. rewrite !seg_all_R, group_all. reflexivity.
    - unfold seg_thermal. rewrite !seg_all_R, group_all. destruct (forallb _ _); auto.
      repeat split; apply group_sum; intros q x y; cbn [fst snd]; destruct (unwrap4 _) as [[[? ?] ?] ?]; rn; ring.
  Qed.

  (** the fourth one changes by n_t times the coefficient of the split segment *)
  Theorem C23_fourth_thermal_coefficient a0 a1 a2 a3 b0 b1 b2 b3 c0 c1 c2 c3 :
    r_thermal (from_segments L) = Some (a0, a1, a2, a3) -> r_thermal (from_segments J) = Some (b0, b1, b2, b3) ->
    r_thermal s = Some (c0, c1, c2, c3) ->
    a3 - b3 = rsum L snd * c3.
  Proof.
    unfold from_segments. cbn [r_thermal]. unfold seg_thermal. rewrite !seg_all_R, group_all.
    destruct (forallb _ _); [ | discriminate]. rewrite !seg_nt_R.
    assert (Ent : rsum J snd = rsum L snd).
    { unfold split_seg, join_seg. repeat (rewrite rsum_app || cbn [rsum]). cbn [snd]. ring. }
    rewrite Ent. intros H1 H2 Hs. injection H1 as _ _ _ <-. injection H2 as _ _ _ <-.
    rewrite !nsum_R, !rsum_map. unfold split_seg, join_seg. repeat (rewrite rsum_app || cbn [rsum]). cbn [fst]. rewrite Hs.
    cbn [unwrap4]. rn. fold L. ring.
  Qed.
End Group.

(** the grouping does change the fourth thermal-conductivity coefficient *)
Definition seg_x : record := @mkRec RNum 1 3 200 None None None None None None None (Some (1, 1, 1, 1, 1)) (Some (0, 0, 0, 1)).
Theorem C23_grouping_refuted : exists l1 l2 l3 s a b,
  r_thermal (from_segments (split_seg l1 l2 l3 s a b)) <> r_thermal (from_segments (join_seg l1 l2 l3 s a b)).
Proof.
  exists [], [], [], seg_x, 1, 1. intros H.
  assert (E : exists a0 a1 a2 a3, r_thermal (from_segments (split_seg [] [] [] seg_x 1 1)) = Some (a0, a1, a2, a3)) by (repeat eexists).
  destruct E as (a0 & a1 & a2 & a3 & E). pose proof E as E'. rewrite H in E'.
  pose proof (C23_fourth_thermal_coefficient _ _ _ _ _ _ _ _ _ _ _ _ _ _ _ _ _ _ E E' eq_refl) as C. cbn in C. lra.
Qed.
(** and diffusion coefficients never depend on the coefficients of the segments: they are zero *)
Theorem C23_diffusion_zero (l : segments) d : r_diffusion (from_segments l) = Some d -> d = (0, 0, 0, 0, 0).
Proof.
  unfold from_segments. cbn [r_diffusion]. unfold seg_diffusion. destruct (seg_all _ _); [ | discriminate].
  intros H. injection H as <-. reflexivity.
Qed.
Theorem C23_diffusion_refuted : exists s d, r_diffusion s = Some d /\ r_diffusion (@from_segments RNum [(s, 1)]) <> Some d.
Proof.
  exists seg_x, (1, 1, 1, 1, 1). split; [reflexivity | ]. intros H. apply C23_diffusion_zero in H. injection H. intros. lra.
Qed.

(** a single segment with multiplicity one *)
Theorem C22_single_segment (s : record) : 0 < r_m s -> 0 < r_sigma s ->
  let r := @from_segments RNum [(s, 1)] in
  r_m r = r_m s /\ r_sigma r = r_sigma s /\ r_epsilon_k r = r_epsilon_k s /\
  r_mu r = r_mu s /\ r_q r = r_q s /\ r_kappa_ab r = r_kappa_ab s /\
  r_epsilon_k_ab r = r_epsilon_k_ab s /\ r_na r = r_na s /\ r_nb r = r_nb s.
Proof.
  intros Hm Hs r. unfold r, from_segments. cbn [r_m r_sigma r_epsilon_k r_mu r_q r_kappa_ab r_epsilon_k_ab r_na r_nb].
  rewrite seg_m_R, seg_sigma3_R, seg_eps_R, !seg_opt_R. unfold tot_opt, tot. cbn [rsum fst snd existsb]. rn.
  assert (O : forall f : record -> option R, (if has f (s, 1) || false then Some ((match f s with Some x => x | None => 0 end) * 1 + 0) else None) = f s).
  { intros f. unfold has. cbn [fst]. destruct (f s); cbn; [f_equal; ring | auto]. }
  split; [ring | ]. split.
  - replace ((r_m s * r_sigma s ^ 3 * 1 + 0) / (r_m s * 1 + 0)) with (r_sigma s * r_sigma s * r_sigma s) by (field; lra).
    apply Rcbrt_of_cube. auto.
  - split; [field; lra | ]. repeat (split; [apply O | ]). apply O.
Qed.

(** the result is an average: bounds on the segments are bounds on the molecule *)
Theorem C22_averages (l : segments) lo hi elo ehi : l <> [] ->
  (forall s n, In (s, n) l -> 0 < n /\ 0 < r_m s /\ 0 < lo <= r_sigma s /\ r_sigma s <= hi /\ elo <= r_epsilon_k s <= ehi) ->
  let r := from_segments l in
  0 < r_m r /\ lo <= r_sigma r <= hi /\ elo <= r_epsilon_k r <= ehi.
Proof.
  intros Hl H r.
  assert (B : forall f c d, (forall s n, In (s, n) l -> c <= f s <= d) -> c * tot r_m l <= tot (fun s => r_m s * f s) l <= d * tot r_m l).
  { intros f c d Hf. unfold tot. rewrite <- !rsum_scal. split; apply rsum_le; intros [s n] I; cbn [fst snd];
      destruct (H s n I) as (Pn & Pm & _); destruct (Hf s n I); assert (0 < r_m s * n) by (apply Rmult_lt_0_compat; auto); nra. }
  assert (Pm : 0 < tot r_m l).
  { destruct l as [ | [s n] l]; [congruence | ]. unfold tot. apply (rsum_pos _ _ (s, n)).
    - intros [s' n'] I. destruct (H s' n' I) as (Pn & Pm & _). cbn. left. apply Rmult_lt_0_compat; auto.
    - left. auto.
    - destruct (H s n) as (Pn & Pm & _); [left; auto | ]. cbn. apply Rmult_lt_0_compat; auto. }
  assert (Plo : 0 < lo /\ lo <= hi).
  { destruct l as [ | [s n] l]; [congruence | ]. destruct (H s n) as (_ & _ & A & B' & _); [left; auto | ]. lra. }
  destruct Plo as [Plo Plh].
  pose proof (B (fun s => r_sigma s ^ 3) (lo ^ 3) (hi ^ 3)) as Bs.
  pose proof (B r_epsilon_k elo ehi) as Be.
  assert (Bs' : lo ^ 3 * tot r_m l <= tot (fun s => r_m s * r_sigma s ^ 3) l <= hi ^ 3 * tot r_m l).
  { apply Bs. intros s n I. destruct (H s n I) as (_ & _ & A & A' & _). split; apply pow_incr; lra. }
  assert (Be' : elo * tot r_m l <= tot (fun s => r_m s * r_epsilon_k s) l <= ehi * tot r_m l).
  { apply Be. intros s n I. apply (H s n I). }
  clear Bs Be.
  assert (Ps : 0 < tot (fun s => r_m s * r_sigma s ^ 3) l).
  { assert (0 < lo ^ 3 * tot r_m l) by (apply Rmult_lt_0_compat; auto; apply pow_lt; auto). lra. }
  destruct (C22_conservation l Pm Ps) as (Em & Es & Ee). fold r in Em, Es, Ee. rewrite Em in Es, Ee.
  split; [rewrite Em; auto | ].
  assert (Pr : 0 < r_sigma r).
  { unfold r, from_segments. cbn [r_sigma]. rewrite seg_m_R, seg_sigma3_R. apply Rcbrt_pos. apply Rdiv_lt_0_compat; auto. }
  assert (Cube : forall x y, 0 < x -> 0 < y -> x ^ 3 <= y ^ 3 -> x <= y).
  { intros x y Hx Hy Hc. apply Rnot_lt_le. intros C. assert (y ^ 3 < x ^ 3); [ | lra].
    cbn. assert (y * y < x * x) by nra. nra. }
  split; [split | ].
  - apply Cube; auto. nra.
  - apply Cube; auto; [lra | nra].
  - split; nra.
Qed.

Lemma same_totals (l l' : segments) :
  tot r_m l = tot r_m l' -> tot (fun s => r_m s * r_sigma s ^ 3) l = tot (fun s => r_m s * r_sigma s ^ 3) l' ->
  tot (fun s => r_m s * r_epsilon_k s) l = tot (fun s => r_m s * r_epsilon_k s) l' ->
  let r := from_segments l in let r' := from_segments l' in
  r_m r = r_m r' /\ r_sigma r = r_sigma r' /\ r_epsilon_k r = r_epsilon_k r'.
Proof.
  intros E1 E2 E3 r r'. unfold r, r', from_segments. cbn [r_m r_sigma r_epsilon_k].
  rewrite !seg_m_R, !seg_sigma3_R, !seg_eps_R, E1, E2, E3. auto.
Qed.

(** composing molecules from molecules: building from the parts of parts or from all parts at once *)
Theorem C22_nested (l l' : segments) a b : 
  (forall s n, In (s, n) l \/ In (s, n) l' -> 0 < n /\ 0 < r_m s /\ 0 < r_sigma s) -> l <> [] -> l' <> [] -> 0 < a -> 0 < b ->
  let scale c := map (fun p : record * R => (fst p, c * snd p)) in
  let r := @from_segments RNum [(from_segments l, a); (from_segments l', b)] in
  let r' := from_segments (scale a l ++ scale b l') in
  r_m r = r_m r' /\ r_sigma r = r_sigma r' /\ r_epsilon_k r = r_epsilon_k r'.
Proof.
  intros H Hl Hl' Ha Hb scale r r'.
  assert (Pos : forall m : segments, m <> [] -> (forall s n, In (s, n) m -> 0 < n /\ 0 < r_m s /\ 0 < r_sigma s) ->
    0 < tot r_m m /\ 0 < tot (fun s => r_m s * r_sigma s ^ 3) m).
  { intros m Hm Hp. destruct m as [ | [s n] m]; [congruence | ]. split; apply (rsum_pos _ _ (s, n)); cbn; auto.
    - intros [s' n'] I. destruct (Hp s' n' I) as (A & B & _). cbn. left. apply Rmult_lt_0_compat; auto.
    - destruct (Hp s n) as (A & B & _); [left; auto | ]. apply Rmult_lt_0_compat; auto.
    - intros [s' n'] I. destruct (Hp s' n' I) as (A & B & C). cbn [fst snd]. left.
      apply Rmult_lt_0_compat; auto. apply Rmult_lt_0_compat; auto. apply (pow_lt _ 3); auto.
    - destruct (Hp s n) as (A & B & C); [left; auto | ]. apply Rmult_lt_0_compat; auto. apply Rmult_lt_0_compat; auto. apply (pow_lt _ 3); auto. }
  destruct (Pos l Hl) as [P1 P2]; [intros; apply H; auto | ].
  destruct (Pos l' Hl') as [P3 P4]; [intros; apply H; auto | ].
  destruct (C22_conservation l P1 P2) as (A1 & A2 & A3). destruct (C22_conservation l' P3 P4) as (B1 & B2 & B3).
  assert (T : forall f, tot f (scale a l ++ scale b l') = a * tot f l + b * tot f l').
  { intros f. unfold tot, scale. rewrite rsum_app, !rsum_map, <- !rsum_scal. f_equal; apply rsum_ext; intros; cbn [fst snd]; ring. }
  unfold r, r'. apply same_totals; rewrite T; unfold tot at 1; cbn [rsum fst snd].
  - rewrite A1, B1. ring.
  - rewrite A2, B2. ring.
  - rewrite A3, B3. ring.
Qed.

(** binary interaction parameters: order-independent weighted sum *)
Theorem C22_binary (l l' : list (R * R * R)) : Permutation l l' ->
  @from_segments_binary RNum l = rsum l (fun p => fst (fst p) * snd (fst p) * snd p) /\
  @from_segments_binary RNum l = @from_segments_binary RNum l'.
Proof.
  intros H. assert (E : forall m, @from_segments_binary RNum m = rsum m (fun p => fst (fst p) * snd (fst p) * snd p)).
  { intros m. unfold from_segments_binary. rewrite nsum_R, rsum_map. apply rsum_ext. intros [[k n1] n2] _. reflexivity. }
  split; [apply E | ]. rewrite !E. apply rsum_perm. auto.
Qed.

(** propane from CH3 and CH2 groups: the hypotheses are met *)
Definition seg_ch3 : record := @mkRec RNum 0.61198 3.7202 229.90 None None None None None None (Some (-0.0086878, -0.1, -0.1, 0.01)) None (Some (0.1, -0.1, 0.2, 0.01)).
Definition seg_ch2 : record := @mkRec RNum 0.45606 3.8900 239.01 (Some 1) None None None None (Some 1) (Some (-0.0087, -0.2, -0.1, 0.02)) None (Some (0.2, -0.3, 0.2, 0.02)).
Definition propane_segs : segments := [(seg_ch3, 2); (seg_ch2, 1)].
Example C22_case :
  let r := from_segments propane_segs in
  r_m r = 1.68002 /\ r_mu r = Some 1 /\ r_q r = None /\ 3.7 <= r_sigma r <= 3.9 /\ 229.9 <= r_epsilon_k r <= 239.01 /\
  r_viscosity r <> None /\ r_diffusion r = None /\
  from_segments propane_segs = from_segments (rev propane_segs) /\
  r_m r = r_m (from_segments [(seg_ch3, 1); (seg_ch2, 1); (seg_ch3, 1)]).
Proof.
  intros r.
  assert (H : forall s n, In (s, n) propane_segs -> 0 < n /\ 0 < r_m s /\ 0 < 3.7 <= r_sigma s /\ r_sigma s <= 3.9 /\ 229.9 <= r_epsilon_k s <= 239.01).
  { intros s n [E | [E | []]]; injection E as <- <-; cbn; lra. }
  destruct (C22_averages propane_segs 3.7 3.9 229.9 239.01 ltac:(discriminate) H) as (_ & A & B). fold r in A, B.
  assert (M : forall l : segments, r_m (from_segments l) = tot r_m l) by (intros l; apply seg_m_R).
  split; [unfold r; rewrite M; cbn; lra | ].
  split; [unfold r; cbn [from_segments r_mu]; rewrite seg_opt_R; cbn; f_equal; ring | ].
  split; [unfold r; cbn [from_segments r_q]; rewrite seg_opt_R; reflexivity | ].
  split; [exact A | ]. split; [exact B | ]. split; [discriminate | ]. split; [reflexivity | ]. split.
  - apply C22_order. apply Permutation_rev.
  - unfold r. rewrite !M. cbn. lra.
Qed.

Example C22_transport_case :
  exists v0 v1, r_viscosity (from_segments propane_segs) = Some (v0, v1, -0.3, 0.04) /\
    v0 = 0.61198 * 3.7202 ^ 3 * -0.0086878 * 2 + 0.45606 * 3.89 ^ 3 * -0.0087 - ln 1.68002 / 2.
Proof.
  pose (g := fun (f : arr4 RNum -> R) (r : record) => match r_viscosity r with Some x => f x | None => 0 end).
  destruct (C22_transport_rules propane_segs (g (fun '(a, _, _, _) => a)) (g (fun '(_, b, _, _) => b))
    (g (fun '(_, _, c, _) => c)) (g (fun '(_, _, _, d) => d))) as [H _].
  specialize (H ltac:(intros s [<- | [<- | []]]; reflexivity)).
  eexists _, _. split.
  { rewrite H. apply (f_equal (@Some (arr4 RNum))).
    apply f_equal2; [apply f_equal2; [apply f_equal2; reflexivity | ] | ];
      cbv [tot rsum propane_segs g seg_ch3 seg_ch2 fst snd r_viscosity r_m r_sigma]; lra. }
  cbv [tot rsum propane_segs g seg_ch3 seg_ch2 fst snd r_viscosity r_m r_sigma].
  replace (0.61198 * 2 + (0.45606 * 1 + 0)) with 1.68002 by lra. change (car RNum) with R in *. lra.
Qed.

Print Assumptions C22_conservation.
Print Assumptions C22_optional_parameters.
Print Assumptions C22_transport_available.
Print Assumptions C22_transport_rules.
Print Assumptions C22_order.
Print Assumptions C22_grouping.
Print Assumptions C22_single_segment.
Print Assumptions C22_averages.
Print Assumptions C22_nested.
Print Assumptions C22_binary.
Print Assumptions C23_grouping_partial.
Print Assumptions C23_fourth_thermal_coefficient.
Print Assumptions C23_grouping_refuted.
Print Assumptions C23_diffusion_zero.
Print Assumptions C23_diffusion_refuted.
