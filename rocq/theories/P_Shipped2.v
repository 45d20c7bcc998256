(** C49: records assembled from the shipped group contribution files. *)
From Coq Require Import ZArith QArith Reals Lra Lia Bool String List.
From Coquelicot Require Import Coquelicot.
From Interval Require Import Tactic.
From Verif Require Import Num RNum RSum Tables M_Params F_Params M_Eos M_Text Shipped M_Shipped Spec F_Spec F_SpecPolar
  F_SpecAssoc F_Contrib F_Cross F_Total F_Transfer XNum F_XParams M_Dft P_Params P_Limit P_Finite P_Finite2 P_Dft P_DftR P_Select
  P_Segments P_Shipped.
Import ListNotations.
Notation length := List.length.
Set Bullet Behavior "Strict Subproofs".
Local Open Scope R_scope.

Definition default_lit : pcsaft_record LitNum :=
  @mkRec LitNum 0%Q 0%Q 0%Q None None None None None None None None None.
Definition seg_of (file : list entry) (s : string) : pcsaft_record LitNum :=
  match find_segment (K := LitNum) file s with Some r => r | None => default_lit end.
Definition readable (file : list entry) (s : string) : bool :=
  match find_segment (K := LitNum) file s with Some _ => true | None => false end.
Definition segs (file : list entry) (names : list string) : segments :=
  map (fun s => (lit_record (K := RNum) (seg_of file s), 1)) names.

Lemma find_lit_segment file s : find_segment (K := RNum) file s = option_map lit_record (find_segment (K := LitNum) file s).
Proof. unfold find_segment, read_segment. destruct (find _ file) as [e | ]; [apply read_lit | reflexivity]. Qed.
Lemma segs_read file names : (forall s, In s names -> readable file s = true) ->
  molecule_segments (K := RNum) file names = Some (segs file names).
Proof.
  unfold molecule_segments, segs. induction names as [ | s l IH]; intros H; [reflexivity | ].
  cbn [map collect_opt]. rewrite IH by (intros s' I; apply H; right; auto).
  assert (R := H s (or_introl eq_refl)). unfold readable in R. rewrite find_lit_segment.
  assert (E : find_segment (K := LitNum) file s = Some (seg_of file s)).
  { unfold seg_of. destruct (find_segment (K := LitNum) file s); [reflexivity | discriminate]. }
  rewrite E. reflexivity.
Qed.
Lemma tot_segs f file names : tot f (segs file names) = rsum names (fun s => f (lit_record (seg_of file s))).
Proof.
  unfold tot, segs. rewrite rsum_map. apply rsum_ext. intros s _. cbn [fst snd]. ring.
Qed.
Lemma segs_in file names x : In x (segs file names) <-> exists s, In s names /\ x = (lit_record (seg_of file s), 1).
Proof. unfold segs. rewrite in_map_iff. split; intros (s & A & B); exists s; auto. Qed.

(* ------------------------------------------------------------ the record from its totals *)

Lemma Rcbrt_pos' x : 0 < x -> 0 < Rcbrt x.
Proof. apply Rcbrt_pos. Qed.
Lemma positive_totals (l : segments) : 0 < tot r_m l -> 0 < tot (fun r => r_m r * r_sigma r ^ 3) l ->
  0 < tot (fun r => r_m r * r_epsilon_k r) l -> physical_record (from_segments l).
Proof.
  intros A B C. unfold physical_record. cbn [from_segments r_m r_sigma r_epsilon_k]. rewrite seg_m_R, seg_sigma3_R, seg_eps_R.
  split; auto. split; [apply Rcbrt_pos'; apply Rdiv_lt_0_compat; auto | apply Rdiv_lt_0_compat; auto].
Qed.
Lemma moment_seg f (l : segments) : moment (@seg_opt RNum f l) = tot_opt f l.
Proof.
  destruct (seg_opt_cases f l) as [[_ ->] | [E ->]]; [reflexivity | ]. cbn [moment]. symmetry. unfold tot_opt, tot. apply rsum_zero.
  intros s Hs. destruct (f (fst s)) as [x | ] eqn:F; [ | ring]. exfalso.
  assert (existsb (has f) l = true); [ | congruence]. apply existsb_exists. exists s. split; auto. unfold has. rewrite F. auto.
Qed.
Lemma seg_opt_nn f (l : segments) : (forall s, In s l -> opt_all (fun x => 0 <= x * snd s) (f (fst s))) ->
  opt_all (fun x => 0 <= x) (@seg_opt RNum f l).
Proof.
  intros H. destruct (seg_opt_cases f l) as [[_ ->] | [E ->]]; [ | exact I]. cbn [opt_all]. unfold tot_opt, tot. apply rsum_nonneg.
  intros s Hs. specialize (H s Hs). destruct (f (fst s)); cbn in *; lra.
Qed.

(* --------------------------------------------------------------- the molecules of the file *)

Definition qsum (l : list string) (f : string -> Q) : Q := fold_right (fun s a => (f s + a)%Q) 0%Q l.
Lemma qsum_R l f : rsum l (fun s => Rlit (f s)) = Rlit (qsum l f).
Proof. induction l as [ | s l IH]; [reflexivity | ]. cbn [rsum qsum fold_right]. fold (qsum l f). rewrite IH, !Rlit_Q2R, Qreals.Q2R_plus. reflexivity. Qed.
Lemma Rlit_mult a b : Rlit (a * b)%Q = Rlit a * Rlit b.
Proof. rewrite !Rlit_Q2R. apply Qreals.Q2R_mult. Qed.

Definition q_m (file : list entry) (s : string) : Q := r_m (seg_of file s).
Definition q_v (file : list entry) (s : string) : Q :=
  (r_m (seg_of file s) * (r_sigma (seg_of file s) * (r_sigma (seg_of file s) * r_sigma (seg_of file s))))%Q.
Definition q_e (file : list entry) (s : string) : Q := (r_m (seg_of file s) * r_epsilon_k (seg_of file s))%Q.
Lemma tot_m file names : tot r_m (segs file names) = Rlit (qsum names (q_m file)).
Proof. rewrite tot_segs, <- qsum_R. reflexivity. Qed.
Lemma tot_v file names : tot (fun r => r_m r * r_sigma r ^ 3) (segs file names) = Rlit (qsum names (q_v file)).
Proof.
  rewrite tot_segs, <- qsum_R. apply rsum_ext. intros s _. unfold q_v. rewrite !Rlit_mult. cbn [lit_record r_m r_sigma].
  cbn [nlit RNum]. cbn [pow]. rewrite Rmult_1_r. reflexivity.
Qed.
Lemma tot_e file names : tot (fun r => r_m r * r_epsilon_k r) (segs file names) = Rlit (qsum names (q_e file)).
Proof. rewrite tot_segs, <- qsum_R. apply rsum_ext. intros s _. unfold q_e. rewrite !Rlit_mult. reflexivity. Qed.

(** what is checked of one group: readable, no quadrupole moment and site numbers, the other
    optional parameters not negative *)
Definition group_b (file : list entry) (s : string) : bool :=
  let r := seg_of file s in
  readable file s && opt_b (qle 0) (r_mu r) && none_b (r_q r) && opt_b (qle 0) (r_kappa_ab r) && opt_b (qle 0) (r_epsilon_k_ab r)
  && none_b (r_na r) && none_b (r_nb r).
Definition molecule_b (file : list entry) (names : list string) : bool :=
  let m := qsum names (q_m file) in let e := qsum names (q_e file) in
  forallb (group_b file) names && qlt 0 m && qlt 0 (qsum names (q_v file)) && qlt 0 e
  && (forallb (fun s => none_b (r_mu (seg_of file s))) names || (qle 1 m && qle e (345 * m))).

Lemma group_ok file s : group_b file s = true ->
  let r := lit_record (K := RNum) (seg_of file s) in
  readable file s = true /\ opt_all (fun x => 0 <= x) (r_mu r) /\ r_q r = None /\ opt_all (fun x => 0 <= x) (r_kappa_ab r) /\
  opt_all (fun x => 0 <= x) (r_epsilon_k_ab r) /\ r_na r = None /\ r_nb r = None.
Proof.
  unfold group_b. rewrite !andb_true_iff. intros ((((((A & B) & C) & D) & E) & F) & G). cbn [lit_record r_mu r_q r_kappa_ab r_epsilon_k_ab r_na r_nb].
  split; auto. split; [apply opt_nn; auto | ]. split; [apply none_b_ok; auto | ]. split; [apply opt_nn; auto | ].
  split; [apply opt_nn; auto | ]. split; apply none_b_ok; auto.
Qed.
Lemma seg_none {A} (f : pcsaft_record RNum -> option A) (l : segments) :
  (forall s, In s l -> f (fst s) = None) -> existsb (has f) l = false.
Proof.
  intros H. destruct (existsb (has f) l) eqn:E; auto. apply existsb_exists in E. destruct E as (s & I & Hs). unfold has in Hs.
  rewrite (H s I) in Hs. discriminate.
Qed.
Lemma groups_sound file names : (forall s, In s names -> group_b file s = true) ->
  let r := from_segments (segs file names) in
  opt_all (fun x => 0 <= x) (r_mu r) /\ r_q r = None /\ opt_all (fun x => 0 <= x) (r_kappa_ab r) /\
  opt_all (fun x => 0 <= x) (r_epsilon_k_ab r) /\ r_na r = None /\ r_nb r = None.
Proof.
  intros H r.
  assert (NN : forall f : pcsaft_record RNum -> option R, (forall s, In s names -> opt_all (fun x => 0 <= x) (f (lit_record (seg_of file s)))) ->
    opt_all (fun x => 0 <= x) (@seg_opt RNum f (segs file names))).
  { intros f Hf. apply seg_opt_nn. intros x Hx. apply segs_in in Hx. destruct Hx as (s & Is & ->). cbn [fst snd]. specialize (Hf s Is).
    destruct (f (lit_record (seg_of file s))); cbn in *; lra. }
  assert (NO : forall f : pcsaft_record RNum -> option R, (forall s, In s names -> f (lit_record (seg_of file s)) = None) ->
    @seg_opt RNum f (segs file names) = None).
  { intros f Hf. rewrite seg_opt_R, seg_none; auto. intros x Hx. apply segs_in in Hx. destruct Hx as (s & Is & ->). apply Hf; auto. }
  assert (G := fun s I => group_ok file s (H s I)). cbv zeta in G.
  unfold r. cbn [from_segments r_mu r_q r_kappa_ab r_epsilon_k_ab r_na r_nb].
  split; [apply NN; intros s I; apply (G s I) | ]. split; [apply NO; intros s I; apply (G s I) | ].
  split; [apply NN; intros s I; apply (G s I) | ]. split; [apply NN; intros s I; apply (G s I) | ].
  split; apply NO; intros s I; apply (G s I).
Qed.

Lemma molecule_ok file names : molecule_b file names = true ->
  exists r, molecule_record (K := RNum) file names = Some r /\ sound_record r /\ r_q r = None /\
    r_m r = Rlit (qsum names (q_m file)).
Proof.
  unfold molecule_b. rewrite !andb_true_iff, orb_true_iff, andb_true_iff. intros ((((A & B) & C) & D) & E).
  rewrite forallb_forall in A. apply qlt_R in B, C, D. change (Rlit 0) with 0 in *.
  exists (from_segments (segs file names)). split.
  { unfold molecule_record. rewrite segs_read; auto. intros s I. apply (group_ok file s (A s I)). }
  destruct (groups_sound file names A) as (Hmu & Hq & Hk & He & Hna & Hnb).
  assert (M : r_m (from_segments (segs file names)) = Rlit (qsum names (q_m file))).
  { cbn [from_segments r_m]. rewrite seg_m_R. apply tot_m. }
  destruct (positive_totals (segs file names)) as (P1 & P2 & P3); [rewrite tot_m; auto | rewrite tot_v; auto | rewrite tot_e; auto | ].
  split; [ | auto]. constructor; auto.
  - rewrite Hq. exact I.
  - rewrite Hna. exact I.
  - rewrite Hnb. exact I.
  - rewrite Hq. intros [Hp | Hp]; [ | exfalso; apply Hp; reflexivity]. destruct E as [E | [E1 E2]].
    + exfalso. apply Hp. cbn [from_segments r_mu]. rewrite seg_opt_R, seg_none; [reflexivity | ].
      intros x Hx. apply segs_in in Hx. destruct Hx as (s & Is & ->). rewrite forallb_forall in E. cbn [fst lit_record r_mu].
      apply none_b_ok. apply E; auto.
    + apply qle_R in E1, E2. rewrite Rlit_mult in E2. rewrite M. split; [exact E1 | ].
      cbn [from_segments r_epsilon_k]. rewrite seg_m_R, seg_eps_R, tot_m, tot_e. change (ndiv ?a ?b) with (a / b).
      apply Rmult_le_reg_r with (Rlit (qsum names (q_m file))); auto. unfold Rdiv. rewrite Rmult_assoc, Rinv_l, Rmult_1_r by lra. exact E2.
  - right. rewrite Hq. reflexivity.
Qed.

(** Both homosegmented group contribution files describe every listed molecule: all groups are
    found, the record is sound, and only ethylene has less than one segment. *)
Theorem C49_molecules file mol : In file [sauer2014_homo; loetgeringlin2015_homo] -> In mol gc_substances ->
  exists r, molecule_record (K := RNum) file (mo_segments mol) = Some r /\ sound_record r /\
    (r_m r < 1 -> mo_name mol = "ethylene"%string).
Proof.
  intros Hf Hm.
  pose (P := fun file mol => molecule_b file (mo_segments mol) &&
    (qle 1 (qsum (mo_segments mol) (q_m file)) || String.eqb (mo_name mol) "ethylene")).
  assert (C : forallb (fun file => forallb (P file) gc_substances) [sauer2014_homo; loetgeringlin2015_homo] = true) by (vm_compute; reflexivity).
  rewrite forallb_forall in C. specialize (C file Hf). rewrite forallb_forall in C. specialize (C mol Hm).
  unfold P in C. rewrite andb_true_iff, orb_true_iff in C. destruct C as [A B].
  destruct (molecule_ok _ _ A) as (r & E & S & _ & M). exists r. split; auto. split; auto. intros L. destruct B as [B | B].
  - exfalso. apply qle_R in B. rewrite M in L. change (Rlit 1) with 1 in B. lra.
  - apply String.eqb_eq; auto.
Qed.

(* ------------------------------------------------------------------- molecules of any size *)

Definition occurs (s : string) (names : list string) : R := INR (count_occ string_dec names s).
Lemma occurs_sum s names : rsum names (fun x => if String.eqb x s then 1 else 0) = occurs s names.
Proof.
  unfold occurs. induction names as [ | x l IH]; [reflexivity | ]. cbn [rsum count_occ]. rewrite IH.
  destruct (string_dec x s) as [-> | Ne]; [rewrite String.eqb_refl, S_INR; ring | ].
  apply String.eqb_neq in Ne. rewrite Ne. ring.
Qed.
Lemma balance names (f : string -> R) a c : 0 <= a ->
  (forall s, In s names -> (a * (if String.eqb s "CH3" then 1 else 0) - 2 * a * (if String.eqb s ">C<" then 1 else 0)) + c <= f s) ->
  2 * occurs ">C<" names <= occurs "CH3" names -> c * INR (length names) <= rsum names f.
Proof.
  intros Ha H Hc.
  assert (L : rsum names (fun s => (a * (if String.eqb s "CH3" then 1 else 0) - 2 * a * (if String.eqb s ">C<" then 1 else 0)) + c)
    <= rsum names f).
  { clear Hc. induction names as [ | x l IH]; [cbn; lra | ]. cbn [rsum]. pose proof (H x (or_introl eq_refl)).
    pose proof (IH (fun s I => H s (or_intror I))). lra. }
  assert (E : rsum names (fun s => (a * (if String.eqb s "CH3" then 1 else 0) - 2 * a * (if String.eqb s ">C<" then 1 else 0)) + c)
    = a * (occurs "CH3" names - 2 * occurs ">C<" names) + c * INR (length names)).
  { rewrite <- !occurs_sum. clear. induction names as [ | x l IH]; [cbn; ring | ]. cbn [rsum]. rewrite IH.
    change (length (x :: l)) with (S (length l)). rewrite S_INR. ring. }
  rewrite E in L. assert (0 <= a * (occurs "CH3" names - 2 * occurs ">C<" names)) by (apply Rmult_le_pos; lra). lra.
Qed.

(** the bounds that are checked of every group of a file *)
Definition bound_b (file : list entry) (s : string) : bool :=
  let by_group (a b c : Q) (x : Q) := if String.eqb s "CH3" then qle a x else if String.eqb s ">C<" then qle b x else qle c x in
  group_b file s && by_group 0.61%Q (-1.19)%Q 0.01%Q (q_m file s) && qle 0.01 (q_v file s)
  && by_group 100.01%Q (-199.99)%Q 0.01%Q (q_e file s)
  && (none_b (r_mu (seg_of file s)) || (qle 1 (q_m file s) && negb (String.eqb s "CH3") && negb (String.eqb s ">C<"))).
Lemma by_group_R s (a b c x : Q) :
  (if String.eqb s "CH3" then qle a x else if String.eqb s ">C<" then qle b x else qle c x) = true ->
  (if String.eqb s "CH3" then Rlit a else if String.eqb s ">C<" then Rlit b else Rlit c) <= Rlit x.
Proof. destruct (String.eqb s "CH3"), (String.eqb s ">C<"); apply qle_R. Qed.
Lemma bounds file s : bound_b file s = true -> group_b file s = true /\
  6 / 10 * (if String.eqb s "CH3" then 1 else 0) - 2 * (6 / 10) * (if String.eqb s ">C<" then 1 else 0)
    + (if none_b (r_mu (seg_of file s)) then 1 / 100 else 1) <= Rlit (q_m file s) /\
  1 / 100 <= Rlit (q_v file s) /\
  100 * (if String.eqb s "CH3" then 1 else 0) - 2 * 100 * (if String.eqb s ">C<" then 1 else 0) + 1 / 100 <= Rlit (q_e file s).
Proof.
  unfold bound_b. cbv zeta. rewrite !andb_true_iff, orb_true_iff, !andb_true_iff, !negb_true_iff.
  intros ((((A & B) & C) & D) & E). apply by_group_R in B, D. apply qle_R in C.
  replace (Rlit 0.61) with (61 / 100) in B by (unfold Rlit; cbn; lra).
  replace (Rlit (-1.19)) with (- (119 / 100)) in B by (unfold Rlit; cbn; lra).
  replace (Rlit 0.01) with (1 / 100) in * by (unfold Rlit; cbn; lra).
  replace (Rlit 100.01) with (10001 / 100) in D by (unfold Rlit; cbn; lra).
  replace (Rlit (-199.99)) with (- (19999 / 100)) in D by (unfold Rlit; cbn; lra).
  split; auto. destruct (String.eqb s "CH3") eqn:E1.
  - apply String.eqb_eq in E1. subst s. cbn [String.eqb Ascii.eqb Bool.eqb] in *. destruct E as [-> | ((_ & ?) & _)]; [ | discriminate].
    repeat split; lra.
  - destruct (String.eqb s ">C<") eqn:E2.
    + destruct E as [-> | ((_ & ?) & ?)]; [ | discriminate]. repeat split; lra.
    + destruct E as [-> | ((E & _) & _)]; [repeat split; lra | ]. apply qle_R in E. change (Rlit 1) with 1 in E.
      destruct (none_b _); repeat split; lra.
Qed.

(** Any non-empty molecule of groups of the file, whatever its size, has a physical record if it
    has at least two methyl groups for every quaternary carbon; if dipolar it has at least one
    segment. *)
Theorem C49_any_molecule file names : In file [sauer2014_homo; loetgeringlin2015_homo] ->
  names <> [] -> (forall s, In s names -> In s (map en_name file)) ->
  2 * occurs ">C<" names <= occurs "CH3" names ->
  exists r, molecule_record (K := RNum) file names = Some r /\ physical_record r /\ (moment (r_mu r) <> 0 -> 1 <= r_m r).
Proof.
  intros Hf Hne Hin Hc.
  assert (C : forallb (fun file => forallb (bound_b file) (map en_name file)) [sauer2014_homo; loetgeringlin2015_homo] = true)
    by (vm_compute; reflexivity).
  rewrite forallb_forall in C. specialize (C file Hf). rewrite forallb_forall in C.
  assert (B := fun s I => bounds file s (C s (Hin s I))).
  assert (Hlen : 0 < INR (length names)) by (apply lt_0_INR; destruct names; [congruence | cbn; lia]).
  exists (from_segments (segs file names)). split.
  { unfold molecule_record. rewrite segs_read; auto. intros s I. apply (group_ok file s). apply (B s I). }
  assert (Tm : forall c, (forall s, In s names -> c <= if none_b (r_mu (seg_of file s)) then 1 / 100 else 1) ->
    c * INR (length names) <= tot r_m (segs file names)).
  { intros c Hcc. rewrite tot_segs. apply balance with (a := 6 / 10); auto; try lra. intros s I.
    destruct (B s I) as (_ & X & _). change (Rlit (q_m file s)) with (r_m (lit_record (K := RNum) (seg_of file s))) in X.
    specialize (Hcc s I). lra. }
  assert (Hm1 : 1 / 100 * INR (length names) <= tot r_m (segs file names)).
  { apply Tm. intros s I. destruct (none_b _); lra. }
  split.
  - apply positive_totals.
    + nra.
    + apply Rlt_le_trans with (1 / 100 * INR (length names)); [nra | ]. rewrite tot_segs.
      apply balance with (a := 0); try lra. intros s I. destruct (B s I) as (_ & _ & X & _). unfold q_v in X. rewrite !Rlit_mult in X.
      cbn [lit_record r_m r_sigma]. cbn [nlit RNum]. cbn [pow]. rewrite Rmult_1_r. lra.
    + apply Rlt_le_trans with (1 / 100 * INR (length names)); [nra | ]. rewrite tot_segs.
      apply balance with (a := 100); try lra. intros s I. destruct (B s I) as (_ & _ & _ & X). unfold q_e in X. rewrite !Rlit_mult in X.
      cbn [lit_record r_m r_epsilon_k]. cbn [nlit RNum]. exact X.
  - intros Hp. cbn [from_segments r_m]. rewrite seg_m_R.
    destruct (existsb (fun s => negb (none_b (r_mu (seg_of file s)))) names) eqn:E.
    + apply existsb_exists in E. destruct E as (s & I & E). apply negb_true_iff in E.
      rewrite tot_segs.
      destruct (in_split _ _ I) as (l1 & l2 & ->).
      set (f := fun s0 : string => r_m (lit_record (K := RNum) (seg_of file s0))).
      pose (h := fun x : string => 6 / 10 * (if String.eqb x "CH3" then 1 else 0) - 2 * (6 / 10) * (if String.eqb x ">C<" then 1 else 0)).
      assert (Hf' : forall x, In x (l1 ++ s :: l2) -> h x <= f x).
      { intros x Ix. destruct (B x Ix) as (_ & X & _). change (Rlit (q_m file x)) with (f x) in X. fold (h x) in X.
        destruct (none_b (r_mu (seg_of file x))); lra. }
      assert (Hs : h s + 1 <= f s).
      { destruct (B s I) as (_ & X & _). change (Rlit (q_m file s)) with (f s) in X. fold (h s) in X. rewrite E in X. exact X. }
      assert (S1 : forall l, (forall x, In x l -> h x <= f x) -> rsum l h <= rsum l f).
      { clear. induction l as [ | x l IH]; intros H; [cbn; lra | ]. cbn [rsum]. pose proof (H x (or_introl eq_refl)).
        pose proof (IH (fun y Iy => H y (or_intror Iy))). lra. }
      assert (S2 : 0 <= rsum (l1 ++ s :: l2) h).
      { assert (T : forall l, rsum l h = 6 / 10 * (occurs "CH3" l - 2 * occurs ">C<" l)).
        { intros l. rewrite <- !occurs_sum. clear - h. induction l as [ | x l IH]; [cbn; ring | ].
          cbn [rsum]. rewrite IH. unfold h. ring. }
        rewrite T. lra. }
      rewrite rsum_app in *. cbn [rsum] in *.
      pose proof (S1 l1 (fun x Ix => Hf' x (in_or_app l1 (s :: l2) x (or_introl Ix)))).
      pose proof (S1 l2 (fun x Ix => Hf' x (in_or_app l1 (s :: l2) x (or_intror (or_intror Ix))))). lra.
    + exfalso. apply Hp. cbn [from_segments r_mu]. rewrite seg_opt_R, seg_none; [reflexivity | ].
      intros x Hx. apply segs_in in Hx. destruct Hx as (s & Is & ->). cbn [fst lit_record r_mu]. apply none_b_ok.
      destruct (none_b (r_mu (seg_of file s))) eqn:N; auto. exfalso.
      assert (existsb (fun s => negb (none_b (r_mu (seg_of file s)))) names = true); [ | congruence].
      apply existsb_exists. exists s. split; auto. rewrite N. reflexivity.
Qed.

(** The condition cannot be dropped: the quaternary carbon alone has a negative segment number. *)
Theorem C49_any_molecule_refuted : exists file names r, In file [sauer2014_homo; loetgeringlin2015_homo] /\
  names <> [] /\ (forall s, In s names -> In s (map en_name file)) /\
  molecule_record (K := RNum) file names = Some r /\ r_m r < 0 /\ ~ physical_record r.
Proof.
  exists sauer2014_homo, [">C<"%string], (from_segments (segs sauer2014_homo [">C<"%string])).
  assert (Hm : r_m (from_segments (segs sauer2014_homo [">C<"%string])) < 0).
  { cbn [from_segments r_m]. rewrite seg_m_R, tot_m.
    assert (Q : qlt (qsum [">C<"%string] (q_m sauer2014_homo)) 0 = true) by (vm_compute; reflexivity). apply qlt_R in Q. exact Q. }
  split; [left; auto | ]. split; [discriminate | ]. split.
  { intros s [<- | []]. cbn. tauto. }
  split; [ | split; auto].
  - unfold molecule_record. rewrite segs_read; auto. intros s [<- | []]. vm_compute. reflexivity.
  - intros (P & _). apply Rlt_asym in P. apply P. exact Hm.
Qed.

(** Some listed molecule has less than one segment: its default functional lacks the chain term
    (see C09_short_chain_refuted). *)
Theorem C49_short_molecule_refuted : exists mol r, In mol gc_substances /\
  molecule_record (K := RNum) sauer2014_homo (mo_segments mol) = Some r /\ 0 < r_m r < 1.
Proof.
  exists (mkMolecule "ethylene" ["=CH2"; "=CH2"]%string), (from_segments (segs sauer2014_homo ["=CH2"; "=CH2"]%string)).
  split; [unfold gc_substances; repeat (first [left; reflexivity | right]) | ]. split.
  - unfold molecule_record. cbn [mo_segments]. rewrite segs_read; auto. intros s [<- | [<- | []]]; vm_compute; reflexivity.
  - cbn [from_segments r_m]. rewrite seg_m_R, tot_m.
    assert (Q : qlt 0 (qsum ["=CH2"; "=CH2"]%string (q_m sauer2014_homo)) = true) by (vm_compute; reflexivity).
    assert (Q' : qlt (qsum ["=CH2"; "=CH2"]%string (q_m sauer2014_homo)) 1 = true) by (vm_compute; reflexivity).
    apply qlt_R in Q, Q'. split; assumption.
Qed.

(* ------------------------------------------------------------------------------ consequences *)

(** a component: a shipped substance, or a listed molecule assembled from groups (with any
    identifier, molar weight and ideal gas record) *)
Definition shipped_component (pr : pure_record RNum) : Prop :=
  (exists e, In e shipped /\ read_pure e = Some pr) \/
  (exists file mol, In file [sauer2014_homo; loetgeringlin2015_homo] /\ In mol gc_substances /\
     molecule_record file (mo_segments mol) = Some (pr_model pr)).
Lemma component_sound pr : shipped_component pr -> sound_record (pr_model pr).
Proof.
  intros [(e & He & Er) | (file & mol & Hf & Hm & Er)].
  - destruct (C48_substances e He) as (pr' & Er' & S & _). rewrite Er in Er'.
    assert (pr' = pr) as -> by (symmetry; exact (Some_inj _ _ Er')). auto.
  - destruct (C49_molecules file mol Hf Hm) as (r & Er' & S & _). rewrite Er in Er'.
    rewrite (Some_inj _ _ Er'). auto.
Qed.

(** mixtures of substances and group contribution molecules *)
Theorem C49_mixture (prs : list (pure_record RNum)) (bin : list (list R)) : (forall pr, In pr prs -> shipped_component pr) ->
  (length prs <= length bin)%nat -> (forall row, In row bin -> (length prs <= length row)%nat) ->
  exists p, from_records prs bin = Some p /\ phys p /\ assoc_phys p /\
  forall t moles lu o, 345 <= t -> length moles = length prs -> (forall x, In x moles -> 0 <= x) -> (exists x, In x moles /\ 0 < x) ->
  forall eps, 0 < eps -> exists V0, forall v, V0 < v ->
    exists r, residual lu (with_options p o) (@state_new RNum t v moles) = Some r /\ Rabs r < eps.
Proof.
  intros H Hr Hc. destruct (build prs bin Hr Hc) as (p & Hp). exists p.
  assert (Hs : forall pr, In pr prs -> sound_record (pr_model pr)) by (intros pr I; apply component_sound; auto).
  split; auto. split; [apply (sound_phys prs bin); auto | ]. split; [apply (sound_assoc prs bin); auto | ].
  intros t moles lu o. apply (sound_limit prs bin); auto.
Qed.

(** functional and equation of state of a group contribution molecule with at least one segment *)
Theorem C49_functional file mol (pr : pure_record RNum) p : In file [sauer2014_homo; loetgeringlin2015_homo] -> In mol gc_substances ->
  mo_name mol <> "ethylene"%string ->
  molecule_record file (mo_segments mol) = Some (pr_model pr) -> new_pure pr = Some p ->
  forall t v N fv lu (o : options RNum) dim, o_dq o = DQ35 -> phys_state p t v [N] ->
  @f_eps RNum < N / v -> 1 / 100000 <= Eta (mix_of p) t (fun i => nth i [N] 0 / v) ->
  same_density (f_bulk lu (f_with_options p fv o) t dim (s_rho (@state_new RNum t v [N])))
    (residual lu (with_options p o) (@state_new RNum t v [N])) v.
Proof.
  intros Hf Hm Hn Er Hp. destruct (C49_molecules file mol Hf Hm) as (r & Er' & S & A). rewrite Er in Er'.
  assert (r = pr_model pr) as -> by (symmetry; exact (Some_inj _ _ Er')).
  apply (sound_functional pr p S Hp). destruct (Rle_lt_dec 1 (r_m (pr_model pr))); auto. exfalso. auto.
Qed.

(* ---------------------------------------------------------------------------------- examples *)

(** dimethyl ether, carbon dioxide and water from three files, with non-zero interactions *)
Definition e_dme : entry :=
  mkEntry "dimethyl ether" 46.069 [("m"%string, QN 2.2634); ("sigma"%string, QN 3.2723); ("epsilon_k"%string, QN 210.29); ("mu"%string, QN 1.3)].
Definition e_co2 : entry :=
  mkEntry "carbon dioxide" 44.01 [("m"%string, QN 1.5131); ("sigma"%string, QN 3.1869); ("epsilon_k"%string, QN 163.33); ("q"%string, QN 4.4)].
Definition e_water : entry :=
  mkEntry "water" 18.015 [("m"%string, QN 1.0656); ("sigma"%string, QN 3.0007); ("epsilon_k"%string, QN 366.51);
    ("kappa_ab"%string, QN 0.034868); ("epsilon_k_ab"%string, QN 2500.7)].
Lemma three_shipped : forall e, In e [e_dme; e_co2; e_water] -> In e shipped.
Proof.
  assert (A : In e_dme gross2006) by (unfold gross2006; repeat (first [left; reflexivity | right])).
  assert (B : In e_co2 gross2005_literature) by (unfold gross2005_literature; repeat (first [left; reflexivity | right])).
  assert (C : In e_water gross2002) by (unfold gross2002; repeat (first [left; reflexivity | right])).
  intros e [<- | [<- | [<- | []]]]; unfold shipped; rewrite !in_app_iff; tauto.
Qed.
Example C48_case : exists (prs : list (pure_record RNum)) p,
  read_all [e_dme; e_co2; e_water] = Some prs /\
  from_records prs [[0; 0.02; 0]; [0.02; 0; -0.1]; [0; -0.1; 0]] = Some p /\
  @ix RNum (p_mu p) 0 = 1.3 /\ @ix RNum (p_q p) 1 = 4.4 /\ @ix RNum (p_kappa_ab p) 2 = 0.034868 /\
  forall lu eps, 0 < eps -> exists V0, forall v, V0 < v ->
    exists r, residual lu (with_options p default_options) (@state_new RNum 350 v [1; 2; 3]) = Some r /\ Rabs r < eps.
Proof.
  destruct (C48_mixture [e_dme; e_co2; e_water] [[0; 0.02; 0]; [0.02; 0; -0.1]; [0; -0.1; 0]] three_shipped) as (prs & p & A & B & _).
  - cbn. lia.
  - intros row [<- | [<- | [<- | []]]]; cbn; lia.
  - exists prs, p. split; auto. split; auto.
    assert (prs = [@mkPure RNum (mkIdent None (Some "dimethyl ether"%string) None None None None) 46.069
                     (@mkRec RNum 2.2634 3.2723 210.29 (Some 1.3) None None None None None None None None) None;
                   @mkPure RNum (mkIdent None (Some "carbon dioxide"%string) None None None None) 44.01
                     (@mkRec RNum 1.5131 3.1869 163.33 None (Some 4.4) None None None None None None None) None;
                   @mkPure RNum (mkIdent None (Some "water"%string) None None None None) 18.015
                     (@mkRec RNum 1.0656 3.0007 366.51 None None (Some 0.034868) (Some 2500.7) None None None None None) None]) as E.
    { symmetry. apply Some_inj. rewrite <- A. reflexivity. }
    split; [rewrite (from_records_raw_of _ _ _ B), E; reflexivity | ].
    split; [rewrite (from_records_raw_of _ _ _ B), E; reflexivity | ].
    split; [rewrite (from_records_raw_of _ _ _ B), E; reflexivity | ].
    intros lu eps Heps. apply (C48_ideal_gas_limit _ _ _ _ three_shipped A B); auto.
    + lra.
    + intros x [<- | [<- | [<- | []]]]; lra.
    + exists 1. split; [left; auto | lra].
Qed.

(** liquid-like water: one associating substance *)
Example C48_finite_case : exists (pr : pure_record RNum) p, read_pure e_water = Some pr /\ new_pure pr = Some p /\
  forall lu lu2, exists r,
    residual lu (with_options p default_options) (@state_new RNum 400 100 [2]) = Some r /\
    residual lu2 (with_options (xparams p) (xoptions default_options)) (xstate 400 100 [2]) = Some (Fin r).
Proof.
  destruct (C48_substances e_water) as (pr & Er & S & _); [apply three_shipped; right; right; left; auto | ].
  assert (E : pr = @mkPure RNum (mkIdent None (Some "water"%string) None None None None) 18.015
                     (@mkRec RNum 1.0656 3.0007 366.51 None None (Some 0.034868) (Some 2500.7) None None None None None) None).
  { symmetry. apply Some_inj. rewrite <- Er. reflexivity. }
  destruct (build [pr] [[0]]) as (p & Hp); [cbn; lia | intros row [<- | []]; cbn; lia | ].
  exists pr, p. split; auto. split; [exact Hp | ]. intros lu lu2.
  assert (Hs : forall q, In q [pr] -> sound_record (pr_model q)) by (intros q [<- | []]; auto).
  assert (Hph := sound_phys _ _ p Hs Hp).
  assert (L : length (p_m p) = 1%nat) by exact (len_p _ _ _ Hp).
  assert (Em : p_m p = [1.0656]) by (rewrite (from_records_raw_of _ _ _ Hp), E; reflexivity).
  assert (Es : p_sigma p = [3.0007]) by (rewrite (from_records_raw_of _ _ _ Hp), E; reflexivity).
  assert (Ee : p_epsilon_k p = [366.51]) by (rewrite (from_records_raw_of _ _ _ Hp), E; reflexivity).
  assert (PS : phys_state p 400 100 [2]).
  { apply Samples.phys_state_intro; auto; try lra.
    - intros i Hi. rewrite L in Hi. destruct i; [cbn; lra | lia].
    - exists 0%nat. rewrite L. split; [lia | cbn; lra].
    - rewrite L, Em, Es. cbn. lra. }
  assert (Hd : p_ndipole p = 0%nat) by (apply (no_dipole _ _ _ Hp (sound_physical _ Hs)); intros q [<- | []]; rewrite E; reflexivity).
  assert (Hq : p_nquadpole p = 0%nat) by (apply (no_quadrupole _ _ _ Hp (sound_physical _ Hs)); intros q [<- | []]; rewrite E; reflexivity).
  assert (Z : forall i, (i < length (p_m p))%nat -> Mu2 (mix_of p) i = 0 /\ Qu2 (mix_of p) i = 0).
  { intros i Hi. rewrite L in Hi. assert (i = 0%nat) as -> by lia.
    assert (R0 : nth_error [pr] 0 = Some pr) by reflexivity.
    destruct (moment_at [pr] [[0]] p Hp 0%nat pr R0) as [A B]. split.
    - destruct (Req_dec (Mu2 (mix_of p) 0) 0) as [ | N]; auto. exfalso. apply (A N). rewrite E. reflexivity.
    - destruct (Req_dec (Qu2 (mix_of p) 0) 0) as [ | N]; auto. exfalso. apply (B N). rewrite E. reflexivity. }
  apply (sound_finite [pr] [[0]] p Hs Hp); auto.
  - lra.
  - unfold Eta, Zeta. change (N (mix_of p)) with (length (p_m p)). rewrite L. cbn [rsum seq]. unfold Di.
    change (M (mix_of p) 0) with (@ix RNum (p_m p) 0). change (Sg (mix_of p) 0) with (@ix RNum (p_sigma p) 0).
    change (Ep (mix_of p) 0) with (@ix RNum (p_epsilon_k p) 0). rewrite Em, Es, Ee. unfold ix. cbn [nth].
    interval.
  - intros (i & Hi & Nz). exfalso. apply Nz, Z; auto.
  - intros (i & j & Hi & Hj & Nz & _). exfalso. apply Nz, Z; auto.
  - rewrite (w_na _ (wfp_from_records _ _ _ Hp)), (w_ass _ (wfp_from_records _ _ _ Hp)), L. cbn [seq filter].
    match goal with |- context [if ?b then _ else _] => destruct b end; cbn; lia.
Qed.

(** methyl tert-alkyl ethers with a chain of any length *)
Example C49_case : forall n, exists r, molecule_record (K := RNum) sauer2014_homo
    ([">C<"; "CH3"; "CH3"; "CH3"; "OCH3"]%string ++ repeat "CH2"%string n) = Some r /\ physical_record r /\ 1 <= r_m r.
Proof.
  intros n. set (names := _ ++ _).
  assert (Hin : forall s, In s names -> s = ">C<"%string \/ s = "CH3"%string \/ s = "OCH3"%string \/ s = "CH2"%string).
  { intros s I. unfold names in I. apply in_app_or in I. destruct I as [I | I]; [cbn in I; intuition auto | ].
    apply repeat_spec in I. auto. }
  assert (Cc : forall s, count_occ string_dec names s
      = (count_occ string_dec [">C<"; "CH3"; "CH3"; "CH3"; "OCH3"]%string s + count_occ string_dec (repeat "CH2"%string n) s)%nat).
  { intros s. unfold names. apply count_occ_app. }
  assert (Cr : forall s, s <> "CH2"%string -> count_occ string_dec (repeat "CH2"%string n) s = 0%nat).
  { intros s Hs. apply count_occ_not_In. intros I. apply repeat_spec in I. auto. }
  destruct (C49_any_molecule sauer2014_homo names) as (r & A & B & C).
  - left; auto.
  - discriminate.
  - intros s I. destruct (Hin s I) as [-> | [-> | [-> | ->]]]; cbn; tauto.
  - unfold occurs. rewrite !Cc, !Cr by discriminate. cbn. lra.
  - exists r. split; auto. split; auto. apply C.
    assert (Er : r = from_segments (segs sauer2014_homo names)).
    { symmetry. apply Some_inj. rewrite <- A. unfold molecule_record. rewrite segs_read; auto.
      intros s I. destruct (Hin s I) as [-> | [-> | [-> | ->]]]; vm_compute; reflexivity. }
    rewrite Er. cbn [from_segments r_mu]. rewrite moment_seg. unfold tot_opt. rewrite tot_segs.
    apply Rgt_not_eq. apply Rlt_gt.
    set (f := fun s => _). assert (F : forall s, In s names -> 0 <= f s).
    { intros s I. destruct (Hin s I) as [-> | [-> | [-> | ->]]]; unfold f; cbn; lra. }
    assert (F1 : 0 < f "OCH3"%string) by (unfold f; cbn; lra).
    unfold names in *. rewrite rsum_app. cbn [rsum].
    assert (0 <= rsum (repeat "CH2"%string n) f) by (apply rsum_nonneg; intros s I; apply F, in_or_app; auto).
    assert (0 <= f ">C<"%string /\ 0 <= f "CH3"%string) by (split; apply F; cbn; tauto). lra.
Qed.

Print Assumptions C48_substances.
Print Assumptions C48_files.
Print Assumptions C48_mixture.
Print Assumptions C48_ideal_gas_limit.
Print Assumptions C48_finite.
Print Assumptions C48_functional.
Print Assumptions C48_functional_refuted.
Print Assumptions C49_molecules.
Print Assumptions C49_any_molecule.
Print Assumptions C49_any_molecule_refuted.
Print Assumptions C49_short_molecule_refuted.
Print Assumptions C49_mixture.
Print Assumptions C49_functional.

(* ------------------------------------------------------------------ which groups are used *)

(** A molecule is assembled from the entries of the file that carry exactly the names asked for, one per
    name and in that order. *)
Theorem C49_groups (file : list entry) (names : list string) (r : pcsaft_record RNum) :
  molecule_record file names = Some r ->
  exists (es : list entry) (rs : list (pcsaft_record RNum)),
    map en_name es = names /\ (forall e, In e es -> In e file) /\
    Forall2 (fun e x => read_segment e = Some x) es rs /\ r = from_segments (map (fun x => (x, 1)) rs).
Proof.
  unfold molecule_record. destruct (molecule_segments file names) as [l | ] eqn:E; [ | discriminate]. intros H. apply Some_inj in H. subst r.
  assert (G : exists es rs, map en_name es = names /\ (forall e, In e es -> In e file) /\
    Forall2 (fun e x => read_segment (K := RNum) e = Some x) es rs /\ l = map (fun x => (x, 1)) rs).
  { revert l E. unfold molecule_segments. induction names as [ | s names IH]; intros l E.
    - cbn [map collect_opt] in E. apply Some_inj in E. subst l. exists [], []. split; [reflexivity | ]. split; [intros e [] | ]. split; [constructor | reflexivity].
    - cbn [map collect_opt] in E. destruct (find_segment (K := RNum) file s) as [x | ] eqn:F; [ | discriminate].
      destruct (collect_opt (map _ names)) as [l' | ]; [ | discriminate]. apply Some_inj in E. subst l.
      destruct (IH l' eq_refl) as (es & rs & A & B & C & ->). unfold find_segment in F. destruct (find _ file) as [e | ] eqn:Fe; [ | discriminate].
      apply find_some in Fe. destruct Fe as [I N]. apply String.eqb_eq in N.
      exists (e :: es), (x :: rs). split; [cbn [map]; rewrite A, N; reflexivity | ]. split; [intros e' [<- | I']; auto | ]. split; [constructor; auto | ].
      cbn [map]. reflexivity. }
  destruct G as (es & rs & A & B & C & ->). exists es, rs. auto.
Qed.
(** A name that the file does not carry is an error, not another group. *)
Theorem C49_unknown_group (file : list entry) (names : list string) (s : string) :
  In s names -> ~ In s (map en_name file) -> molecule_record (K := RNum) file names = None.
Proof.
  intros I N. destruct (molecule_record (K := RNum) file names) as [r | ] eqn:E; auto. exfalso. destruct (C49_groups _ _ _ E) as (es & rs & A & B & _).
  rewrite <- A in I. apply in_map_iff in I. destruct I as (e & <- & Ie). apply N. apply in_map. auto.
Qed.
(** The names in each shipped file are distinct, so the entries are determined by them. *)
Theorem C49_distinct_groups (file : list entry) (e e' : entry) : In file [sauer2014_homo; loetgeringlin2015_homo] ->
  In e file -> In e' file -> en_name e = en_name e' -> e = e'.
Proof.
  intros H I I' E. assert (D : NoDup (map en_name file)).
  { assert (X : nodup string_dec (map en_name file) = map en_name file) by (destruct H as [<- | [<- | []]]; vm_compute; reflexivity). rewrite <- X. apply NoDup_nodup. }
  clear H. induction file as [ | a l IH]; [destruct I | ]. cbn [map] in D. inversion D as [ | ? ? N1 N2]; subst.
  destruct I as [<- | I], I' as [<- | I']; auto.
  - exfalso. apply N1. rewrite E. apply in_map. auto.
  - exfalso. apply N1. rewrite <- E. apply in_map. auto.
Qed.
Example C49_groups_case : molecule_record (K := RNum) sauer2014_homo ["CH3"; "CH2x"]%string = None
  /\ exists r, molecule_record (K := RNum) sauer2014_homo ["CH3"; "CH3"]%string = Some r.
Proof.
  split.
  - apply (C49_unknown_group _ _ "CH2x"%string); [right; left; reflexivity | ]. intros H. vm_compute in H. repeat destruct H as [H | H]; try discriminate H; auto.
  - eexists. reflexivity.
Qed.
Print Assumptions C49_groups.
Print Assumptions C49_unknown_group.
Print Assumptions C49_distinct_groups.
