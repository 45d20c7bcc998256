(** C48, C49: the parameter files shipped with the crate lie in the domain of the theorems. *)
From Coq Require Import ZArith QArith Reals Lra Lia Bool String List.
From Coquelicot Require Import Coquelicot.
From Verif Require Import Num RNum RSum Tables M_Params F_Params M_Eos M_Text Shipped M_Shipped Spec F_Spec F_SpecPolar
  F_SpecAssoc F_Contrib F_Cross F_Total F_Transfer XNum F_XParams M_Dft P_Params P_Limit P_Finite P_Finite2 P_Dft P_DftR P_Select.
Import ListNotations.
Notation length := List.length.
Set Bullet Behavior "Strict Subproofs".
Local Open Scope R_scope.

(* ------------------------------------------------ evaluation of the files over the rationals *)

(** Decimal literals as a number structure; only the carrier is used (reading a file performs no
    arithmetic). *)
Definition LitNum : Num :=
  {| car := Q; nlit := fun q => q; npi := 0%Q;
     nadd := Qplus; nsub := Qminus; nmul := Qmult; ndiv := Qdiv; nopp := Qopp; nrecip := Qinv;
     npowi := fun x k => Qpower x (Z.of_nat k); npowf := fun x _ => x; nexp := fun x => x; nexpm1 := fun x => x;
     nln := fun x => x; nln1p := fun x => x; nsqrt := fun x => x; ncbrt := fun x => x; nsin := fun x => x;
     nmin := fun x _ => x; nabs := fun x => x; nre := fun x => x;
     nltb := fun a b => negb (Qle_bool b a); neqb := Qeq_bool; nisnan := fun _ => false; nderiv := 0%nat |}.

Section Lit.
  Context {K : Num}.
  Notation T := (car K).
  Definition lit4 (a : arr4 LitNum) : arr4 K := let '(a, b, c, d) := a in (nlit a, nlit b, nlit c, nlit d).
  Definition lit5 (a : arr5 LitNum) : arr5 K := let '(a, b, c, d, e) := a in (nlit a, nlit b, nlit c, nlit d, nlit e).
  Definition lit_record (r : pcsaft_record LitNum) : pcsaft_record K :=
    mkRec (nlit (r_m r)) (nlit (r_sigma r)) (nlit (r_epsilon_k r))
      (option_map nlit (r_mu r)) (option_map nlit (r_q r))
      (option_map nlit (r_kappa_ab r)) (option_map nlit (r_epsilon_k_ab r))
      (option_map nlit (r_na r)) (option_map nlit (r_nb r))
      (option_map lit4 (r_viscosity r)) (option_map lit5 (r_diffusion r)) (option_map lit4 (r_thermal r)).

  Lemma find_lit {L : Num} key l :
    find_key key (map (fun kv => (fst kv, @value_json L (snd kv))) l)
    = map (@value_json L) (map snd (filter (fun kv => String.eqb key (fst kv)) l)).
  Proof.
    unfold find_key. rewrite map_map.
    induction l as [ | [k x] l IH]; [reflexivity | ]. cbn. destruct (String.eqb key k); cbn; [f_equal | ]; apply IH.
  Qed.
  Lemma req_lit key l :
    req_field (K := K) key (map (fun kv => (fst kv, value_json (snd kv))) l)
    = option_map nlit (req_field (K := LitNum) key (map (fun kv => (fst kv, value_json (snd kv))) l)).
  Proof.
    unfold req_field. rewrite !find_lit. destruct (map snd _) as [ | x [ | y w]]; [reflexivity | | reflexivity].
    destruct x; reflexivity.
  Qed.
  Lemma opt_lit {A B} key (de : json LitNum -> option A) (de' : json K -> option B) (f : A -> B) l :
    (forall x, de' (value_json x) = option_map f (de (value_json x))) ->
    opt_field (K := K) key de' (map (fun kv => (fst kv, value_json (snd kv))) l)
    = option_map (option_map f) (opt_field (K := LitNum) key de (map (fun kv => (fst kv, value_json (snd kv))) l)).
  Proof.
    intros H. unfold opt_field. rewrite !find_lit. destruct (map snd _) as [ | x [ | y w]]; [reflexivity | | destruct x; reflexivity].
    specialize (H x). destruct x; cbn [map value_json] in *; rewrite H;
      match goal with |- context [de ?a] => destruct (de a) end; reflexivity.
  Qed.
  Lemma collect_num {L : Num} l : collect_opt (map de_num (map (fun x => @JNum L (nlit x)) l)) = Some (map nlit l).
  Proof. induction l as [ | x l IH]; [reflexivity | ]. cbn in *. rewrite IH. reflexivity. Qed.
  Lemma arr_lit {L : Num} n l : de_arr (K := L) n (JArr (map (fun x => JNum (nlit x)) l))
    = if Nat.eqb (length l) n then Some (map nlit l) else None.
  Proof. unfold de_arr. rewrite collect_num, map_length. reflexivity. Qed.
  Lemma num_lit x : de_num (K := K) (value_json x) = option_map nlit (de_num (K := LitNum) (value_json x)).
  Proof. destruct x; reflexivity. Qed.
  Lemma arr4_lit x : de_arr4 (K := K) (value_json x) = option_map lit4 (de_arr4 (K := LitNum) (value_json x)).
  Proof.
    destruct x as [x | l]; [reflexivity | ]. unfold de_arr4. cbn [value_json]. rewrite !arr_lit.
    destruct l as [ | a [ | b [ | c [ | d [ | e l]]]]]; reflexivity.
  Qed.
  Lemma arr5_lit x : de_arr5 (K := K) (value_json x) = option_map lit5 (de_arr5 (K := LitNum) (value_json x)).
  Proof.
    destruct x as [x | l]; [reflexivity | ]. unfold de_arr5. cbn [value_json]. rewrite !arr_lit.
    destruct l as [ | a [ | b [ | c [ | d [ | e [ | f l]]]]]]; reflexivity.
  Qed.
  (** reading commutes with the interpretation of literals *)
  Lemma read_lit l : deserialize (K := K) (model_json l) = option_map lit_record (deserialize (K := LitNum) (model_json l)).
  Proof.
    unfold deserialize, model_json. rewrite !req_lit.
    rewrite !(@opt_lit (car LitNum) (car K) _ _ _ nlit _ num_lit),
      !(@opt_lit (arr4 LitNum) (arr4 K) _ _ _ lit4 _ arr4_lit),
      (@opt_lit (arr5 LitNum) (arr5 K) _ _ _ lit5 _ arr5_lit).
    repeat match goal with |- bind (option_map _ ?o) _ = _ => destruct o; [ | reflexivity]; cbn [option_map bind] end.
    reflexivity.
  Qed.
End Lit.

(* --------------------------------------------------------------------- the checked conditions *)

Lemma Rlit_Q2R q : Rlit q = Q2R q.
Proof.
  unfold Rlit, Q2R. destruct q as [a d]. cbn [Qnum Qden]. destruct d; unfold Rdiv; auto. rewrite Rinv_1, Rmult_1_r. reflexivity.
Qed.
Definition qle (a b : Q) : bool := Qle_bool a b.
Definition qlt (a b : Q) : bool := negb (Qle_bool b a).
Lemma qle_R a b : qle a b = true -> Rlit a <= Rlit b.
Proof. rewrite !Rlit_Q2R. intros H. apply Qreals.Qle_Rle, Qle_bool_iff, H. Qed.
Lemma qlt_R a b : qlt a b = true -> Rlit a < Rlit b.
Proof.
  rewrite !Rlit_Q2R. unfold qlt. rewrite negb_true_iff. intros H. apply Qreals.Qlt_Rlt.
  destruct (Qlt_le_dec a b) as [ | L]; auto. apply Qle_bool_iff in L. congruence.
Qed.

Definition opt_all {A} (P : A -> Prop) (o : option A) : Prop := match o with Some x => P x | None => True end.
Definition moment (o : option R) : R := match o with Some x => x | None => 0 end.

(** What holds of the record of every shipped substance: segment number, diameter and energy are
    positive; moments and association parameters are not negative; site numbers are between one
    and two; a polar substance has at least one segment and an energy of at most 345 K; none
    is both dipolar and quadrupolar. *)
Record sound_record (r : pcsaft_record RNum) : Prop := {
  sr_m : 0 < r_m r; sr_sigma : 0 < r_sigma r; sr_eps : 0 < r_epsilon_k r;
  sr_mu : opt_all (fun x => 0 <= x) (r_mu r); sr_q : opt_all (fun x => 0 <= x) (r_q r);
  sr_kappa : opt_all (fun x => 0 <= x) (r_kappa_ab r);
  sr_eab : opt_all (fun x => 0 <= x) (r_epsilon_k_ab r);
  sr_na : opt_all (fun x => 1 <= x <= 2) (r_na r); sr_nb : opt_all (fun x => 1 <= x <= 2) (r_nb r);
  sr_polar : moment (r_mu r) <> 0 \/ moment (r_q r) <> 0 -> 1 <= r_m r /\ r_epsilon_k r <= 345;
  sr_one : moment (r_mu r) = 0 \/ moment (r_q r) = 0 }.

Definition opt_b {A} (f : A -> bool) (o : option A) : bool := match o with Some x => f x | None => true end.
Definition qmoment (o : option Q) : Q := match o with Some x => x | None => 0%Q end.
Definition sound_b (r : pcsaft_record LitNum) : bool :=
  let nz := fun o => negb (Qeq_bool (qmoment o) 0) in
  qlt 0 (r_m r) && qlt 0 (r_sigma r) && qlt 0 (r_epsilon_k r)
  && opt_b (qle 0) (r_mu r) && opt_b (qle 0) (r_q r) && opt_b (qle 0) (r_kappa_ab r) && opt_b (qle 0) (r_epsilon_k_ab r)
  && opt_b (fun x => qle 1 x && qle x 2) (r_na r) && opt_b (fun x => qle 1 x && qle x 2) (r_nb r)
  && implb (nz (r_mu r) || nz (r_q r)) (qle 1 (r_m r) && qle (r_epsilon_k r) 345)
  && negb (nz (r_mu r) && nz (r_q r)).

Lemma lit0 : Rlit 0 = 0. Proof. reflexivity. Qed.
Lemma opt_nn o : opt_b (qle 0) o = true -> opt_all (fun x => 0 <= x) (option_map (@nlit RNum) o).
Proof. destruct o as [x | ]; cbn; auto. intros H. apply qle_R in H. exact H. Qed.
Lemma opt_12 o : opt_b (fun x => qle 1 x && qle x 2) o = true -> opt_all (fun x => 1 <= x <= 2) (option_map (@nlit RNum) o).
Proof. destruct o as [x | ]; cbn; auto. intros H. apply andb_true_iff in H. destruct H as [A B]. apply qle_R in A, B. split; auto. Qed.
Lemma moment_nz o : Qeq_bool (qmoment o) 0 = true -> moment (option_map (@nlit RNum) o) = 0.
Proof.
  intros H. apply Qeq_bool_eq in H. destruct o as [x | ]; auto. cbn in *. change (Rlit x = 0). rewrite Rlit_Q2R, (Qreals.Qeq_eqR _ _ H).
  unfold Q2R. cbn. lra.
Qed.
Lemma sound_b_ok r : sound_b r = true -> sound_record (lit_record (K := RNum) r).
Proof.
  unfold sound_b. rewrite !andb_true_iff. intros ((((((((((H1 & H2) & H3) & H4) & H5) & H6) & H7) & H8) & H9) & H10) & H11).
  apply qlt_R in H1, H2, H3. constructor; cbn [lit_record r_m r_sigma r_epsilon_k r_mu r_q r_kappa_ab r_epsilon_k_ab r_na r_nb].
  - exact H1.
  - exact H2.
  - exact H3.
  - apply opt_nn, H4.
  - apply opt_nn, H5.
  - apply opt_nn, H6.
  - apply opt_nn, H7.
  - apply opt_12, H8.
  - apply opt_12, H9.
  - intros Hp. destruct (Qeq_bool (qmoment (r_mu r)) 0) eqn:E1, (Qeq_bool (qmoment (r_q r)) 0) eqn:E2;
      try (cbn in H10; apply andb_true_iff in H10; destruct H10 as [A B]; apply qle_R in A, B; split; assumption).
    exfalso. apply moment_nz in E1, E2. tauto.
  - destruct (Qeq_bool (qmoment (r_mu r)) 0) eqn:E1; [left; apply moment_nz; auto | ].
    destruct (Qeq_bool (qmoment (r_q r)) 0) eqn:E2; [right; apply moment_nz; auto | ]. discriminate H11.
Qed.

Definition checked (P : entry -> pcsaft_record LitNum -> bool) (e : entry) : bool :=
  match deserialize (K := LitNum) (model_json (en_model e)) with Some r => P e r | None => false end.
Lemma checked_ok P l : forallb (checked P) l = true -> forall e, In e l ->
  exists r, P e r = true /\
    forall K, read_segment (K := K) e = Some (lit_record r) /\
    read_pure (K := K) e = Some (mkPure (mkIdent None (Some (en_name e)) None None None None) (nlit (en_molarweight e)) (lit_record r) None).
Proof.
  intros H e He. apply forallb_forall with (x := e) in H; auto. unfold checked in H.
  destruct (deserialize (K := LitNum) (model_json (en_model e))) as [r | ] eqn:E; [ | discriminate].
  exists r. split; auto. intros K. unfold read_segment, read_pure. rewrite (read_lit (K := K)), E. auto.
Qed.

Definition none_b {A} (o : option A) : bool := match o with None => true | _ => false end.
Lemma none_b_ok {A B} (f : A -> B) o : none_b o = true -> option_map f o = None.
Proof. destruct o; cbn; congruence. Qed.

(** Every shipped substance is read, its record is sound, it has no coefficients for diffusion and
    thermal conductivity, and only argon has less than one segment. *)
Theorem C48_substances e : In e shipped -> exists pr, read_pure (K := RNum) e = Some pr /\ sound_record (pr_model pr) /\
  r_diffusion (pr_model pr) = None /\ r_thermal (pr_model pr) = None /\ pr_ideal_gas pr = None /\
  (r_m (pr_model pr) < 1 -> en_name e = "argon"%string).
Proof.
  intros He.
  pose (P := fun (e : entry) (r : pcsaft_record LitNum) =>
    sound_b r && (qle 1 (r_m r) || String.eqb (en_name e) "argon") && (none_b (r_diffusion r) && none_b (r_thermal r))).
  assert (C : forallb (checked P) shipped = true) by (vm_compute; reflexivity).
  destruct (checked_ok P _ C e He) as (r & Hr & Hk). specialize (Hk RNum). destruct Hk as [_ Hk].
  eexists. split; [exact Hk | ]. cbn [pr_model pr_ideal_gas]. unfold P in Hr. rewrite !andb_true_iff in Hr.
  destruct Hr as ((A & B) & D & E).
  split; [apply sound_b_ok; auto | ]. split; [apply none_b_ok; auto | ]. split; [apply none_b_ok; auto | ]. split; auto.
  intros L. apply orb_true_iff in B. destruct B as [B | B].
  - exfalso. apply qle_R in B. change (Rlit 1) with 1 in B. cbn [lit_record r_m] in L. change (Rlit (r_m r) < 1) in L. lra.
  - apply String.eqb_eq; auto.
Qed.

(** what the file names promise: no polar or associating substance in the first file, association
    in the second, quadrupoles in the third and fourth, dipoles in the fifth, viscosity
    coefficients in the sixth and only there, association in the last *)
Definition polar_free (r : pcsaft_record RNum) : Prop := moment (r_mu r) = 0 /\ moment (r_q r) = 0.
Definition read_as (P : pcsaft_record RNum -> Prop) (file : list entry) : Prop :=
  forall e, In e file -> exists r, read_segment (K := RNum) e = Some r /\ P r.
Lemma read_as_of (Q : entry -> pcsaft_record LitNum -> bool) (P : pcsaft_record RNum -> Prop) file :
  (forall e r, Q e r = true -> P (lit_record r)) -> forallb (checked Q) file = true -> read_as P file.
Proof.
  intros H C e He. destruct (checked_ok Q _ C e He) as (r & Hr & Hk). exists (lit_record r). split; [apply (Hk RNum) | eauto].
Qed.
Definition pos_b (o : option Q) : bool := match o with Some x => qlt 0 x | None => false end.
Lemma pos_b_ok o : pos_b o = true -> 0 < moment (option_map (@nlit RNum) o).
Proof. destruct o as [x | ]; [ | discriminate]. intros H. apply qlt_R in H. exact H. Qed.
Theorem C48_files :
  read_as (fun r => polar_free r /\ moment (r_kappa_ab r) = 0 /\ r_viscosity r = None) gross2001 /\
  read_as (fun r => polar_free r /\ 0 < moment (r_kappa_ab r) /\ 0 < moment (r_epsilon_k_ab r) /\ r_viscosity r = None) gross2002 /\
  read_as (fun r => 0 < moment (r_q r) /\ moment (r_kappa_ab r) = 0 /\ r_viscosity r = None)
    (gross2005_fit ++ gross2005_literature) /\
  read_as (fun r => 0 < moment (r_mu r) /\ moment (r_kappa_ab r) = 0 /\ r_viscosity r = None) gross2006 /\
  read_as (fun r => r_viscosity r <> None) loetgeringlin2018 /\
  read_as (fun r => 0 < moment (r_kappa_ab r) /\ 0 < moment (r_epsilon_k_ab r) /\ r_viscosity r = None) rehner2020.
Proof.
  pose (z := fun o => Qeq_bool (qmoment o) 0). pose (v := fun r : pcsaft_record LitNum => none_b (r_viscosity r)).
  split; [ | split; [ | split; [ | split; [ | split]]]].
  - apply (read_as_of (fun _ r => z (r_mu r) && z (r_q r) && z (r_kappa_ab r) && v r)); [ | vm_compute; reflexivity].
    intros _ r. unfold z, v. rewrite !andb_true_iff. intros (((A & B) & C) & D).
    split; [split; apply moment_nz; assumption | split; [apply moment_nz | apply none_b_ok]; assumption].
  - apply (read_as_of (fun _ r => z (r_mu r) && z (r_q r) && pos_b (r_kappa_ab r) && pos_b (r_epsilon_k_ab r) && v r));
      [ | vm_compute; reflexivity].
    intros _ r. unfold z, v. rewrite !andb_true_iff. intros ((((A & B) & C) & D) & E).
    split; [split; apply moment_nz; assumption | ].
    split; [apply pos_b_ok; assumption | split; [apply pos_b_ok; assumption | apply none_b_ok; assumption]].
  - apply (read_as_of (fun _ r => pos_b (r_q r) && z (r_kappa_ab r) && v r)); [ | vm_compute; reflexivity].
    intros _ r. unfold z, v. rewrite !andb_true_iff. intros ((A & B) & C).
    split; [apply pos_b_ok; assumption | split; [apply moment_nz | apply none_b_ok]; assumption].
  - apply (read_as_of (fun _ r => pos_b (r_mu r) && z (r_kappa_ab r) && v r)); [ | vm_compute; reflexivity].
    intros _ r. unfold z, v. rewrite !andb_true_iff. intros ((A & B) & C).
    split; [apply pos_b_ok; assumption | split; [apply moment_nz | apply none_b_ok]; assumption].
  - apply (read_as_of (fun _ r => negb (v r))); [ | vm_compute; reflexivity].
    intros _ r. unfold v. rewrite negb_true_iff. intros A. cbn [lit_record r_viscosity]. destruct (r_viscosity r); [discriminate | discriminate A].
  - apply (read_as_of (fun _ r => pos_b (r_kappa_ab r) && pos_b (r_epsilon_k_ab r) && v r)); [ | vm_compute; reflexivity].
    intros _ r. unfold v. rewrite !andb_true_iff. intros ((A & B) & C).
    split; [apply pos_b_ok; assumption | split; [apply pos_b_ok; assumption | apply none_b_ok; assumption]].
Qed.

(* ---------------------------------------------------------------------------------- mixtures *)

Definition read_all {K : Num} (es : list entry) : option (list (pure_record K)) := collect_opt (map read_pure es).

Section Mixture.
  Variables (es : list entry).
  Hypothesis Hes : forall e, In e es -> In e shipped.

  Lemma read_shipped : exists prs, read_all (K := RNum) es = Some prs /\ length prs = length es /\
    forall i e, nth_error es i = Some e -> exists pr, nth_error prs i = Some pr /\ read_pure e = Some pr /\ sound_record (pr_model pr).
  Proof.
    unfold read_all. induction es as [ | e l IH].
    - exists []. split; [reflexivity | split; [reflexivity | ]]. intros [ | i] e; discriminate.
    - destruct IH as (prs & E & L & H); [intros e' He'; apply Hes; right; auto | ].
      destruct (C48_substances e) as (pr & Er & S & _); [apply Hes; left; auto | ].
      exists (pr :: prs). cbn [map collect_opt]. rewrite Er, E. split; auto. split; [cbn; lia | ].
      intros [ | i] e' He'; cbn in *; [ | apply H; auto].
      assert (e' = e) as -> by congruence. exists pr. auto.
  Qed.
  Lemma all_sound prs : read_all (K := RNum) es = Some prs -> forall pr, In pr prs -> sound_record (pr_model pr).
  Proof.
    intros E pr Hpr. destruct read_shipped as (prs' & E' & L & H).
    assert (prs' = prs) as -> by (rewrite E in E'; symmetry; exact (Some_inj _ _ E')).
    apply In_nth_error in Hpr. destruct Hpr as (i & Hi). assert (Li : (i < length prs)%nat) by (apply nth_error_Some; congruence).
    destruct (nth_error es i) as [e | ] eqn:Ee; [ | apply nth_error_None in Ee; lia].
    destruct (H i e Ee) as (pr' & A & _ & B). assert (pr' = pr) as -> by congruence. auto.
  Qed.

  Lemma len_all prs : read_all (K := RNum) es = Some prs -> length prs = length es.
  Proof.
    intros E. destruct read_shipped as (prs' & E' & L & _). assert (prs' = prs) as <-; auto. rewrite E in E'. symmetry. exact (Some_inj _ _ E').
  Qed.
End Mixture.

(** consequences for any list of sound records *)
Section Sound.
  Variables (prs : list (pure_record RNum)) (bin : list (list R)) (p : params RNum).
  Hypothesis Hs : forall pr, In pr prs -> sound_record (pr_model pr).
  Hypothesis Hp : from_records prs bin = Some p.
  Notation n := (length (p_m p)).
  Notation X := (mix_of p).

  Lemma len_p : n = length prs.
  Proof. rewrite (from_records_raw_of _ _ _ Hp). apply fr_len_m. Qed.
  Lemma rec_at i : (i < n)%nat -> exists pr, nth_error prs i = Some pr /\ sound_record (pr_model pr) /\
    @ix RNum (p_m p) i = r_m (pr_model pr) /\ @ix RNum (p_sigma p) i = r_sigma (pr_model pr) /\
    @ix RNum (p_epsilon_k p) i = r_epsilon_k (pr_model pr) /\
    @ix RNum (p_kappa_ab p) i = moment (r_kappa_ab (pr_model pr)) /\
    @ix RNum (p_epsilon_k_ab p) i = moment (r_epsilon_k_ab (pr_model pr)) /\
    @ix RNum (p_na p) i = unwrap_or (r_na (pr_model pr)) 1 /\ @ix RNum (p_nb p) i = unwrap_or (r_nb (pr_model pr)) 1.
  Proof.
    intros Hi. rewrite len_p in Hi. destruct (nth_error prs i) as [pr | ] eqn:E; [ | apply nth_error_None in E; lia].
    exists pr. split; auto. split; [apply Hs, (nth_error_In _ _ E) | ].
    rewrite (from_records_raw_of _ _ _ Hp).
    rewrite (fr_m prs bin pr), (fr_sigma prs bin pr), (fr_eps prs bin pr), (fr_kab prs bin pr), (fr_eab prs bin pr),
      (fr_na prs bin pr), (fr_nb prs bin pr) by auto.
    rewrite (nth_error_nth _ _ _ E). repeat split; try reflexivity.
  Qed.
  Lemma sound_physical : forall pr, In pr prs -> physical_record (pr_model pr).
  Proof. intros pr H. apply Hs in H. split; [apply H | split; apply H]. Qed.
  Lemma sound_phys : phys p.
  Proof.
    intros i Hi. destruct (rec_at i Hi) as (pr & _ & S & E1 & E2 & E3 & _).
    rewrite E1, E2, E3. split; [apply S | split; apply S].
  Qed.
  Lemma sound_assoc : assoc_phys p.
  Proof.
    intros i Hi. destruct (rec_at i Hi) as (pr & _ & S & _ & _ & _ & E1 & E2 & E3 & E4).
    rewrite E1, E2, E3, E4. destruct S as [_ _ _ _ _ K E A B _ _].
    destruct (r_kappa_ab (pr_model pr)), (r_epsilon_k_ab (pr_model pr)), (r_na (pr_model pr)), (r_nb (pr_model pr)); cbn in *;
      repeat split; lra.
  Qed.
  Lemma sound_sites i : (i < n)%nat -> 1 <= Na X i <= 2 /\ 1 <= Nb X i <= 2.
  Proof.
    intros Hi. destruct (rec_at i Hi) as (pr & _ & S & _ & _ & _ & _ & _ & E3 & E4). change (Na X i) with (@ix RNum (p_na p) i). change (Nb X i) with (@ix RNum (p_nb p) i).
    rewrite E3, E4. destruct S as [_ _ _ _ _ _ _ A B _ _]. destruct (r_na (pr_model pr)), (r_nb (pr_model pr)); cbn in *; lra.
  Qed.
  Lemma moment_at i pr : nth_error prs i = Some pr ->
    (@ix RNum (p_mu2 p) i <> 0 -> moment (r_mu (pr_model pr)) <> 0) /\ (@ix RNum (p_q2 p) i <> 0 -> moment (r_q (pr_model pr)) <> 0).
  Proof.
    intros E. assert (Li : (i < length prs)%nat) by (apply nth_error_Some; congruence).
    rewrite (from_records_raw_of _ _ _ Hp). rewrite (fr_mu2 prs bin), (fr_q2 prs bin) by auto. rewrite (fr_mu prs bin pr), (fr_q prs bin pr) by auto.
    rewrite (nth_error_nth _ _ _ E). unfold mu2_of, q2_of. split; intros H Z; apply H.
    - change (moment (r_mu (pr_model pr))) with (unwrap_or (r_mu (pr_model pr)) (@n0 RNum)) in Z. rewrite Z. rn. unfold Rdiv. ring.
    - change (moment (r_q (pr_model pr))) with (unwrap_or (r_q (pr_model pr)) (@n0 RNum)) in Z. rewrite Z. rn. unfold Rdiv. ring.
  Qed.
  Lemma sound_polar i : (i < n)%nat -> @ix RNum (p_mu2 p) i <> 0 \/ @ix RNum (p_q2 p) i <> 0 ->
    1 <= @ix RNum (p_m p) i /\ @ix RNum (p_epsilon_k p) i <= 345.
  Proof.
    intros Hi H. destruct (rec_at i Hi) as (pr & E & S & -> & _ & -> & _). apply (sr_polar _ S).
    destruct (moment_at i pr E). tauto.
  Qed.

  Lemma sound_one i : (i < n)%nat -> Mu2 X i = 0 \/ Qu2 X i = 0.
  Proof.
    intros Hi. destruct (rec_at i Hi) as (pr & Er & S & _). destruct (moment_at i pr Er) as [A B].
    destruct (sr_one _ S) as [Z | Z]; [left | right].
    - destruct (Req_dec (Mu2 X i) 0) as [ | Ne]; auto. destruct (A Ne Z).
    - destruct (Req_dec (Qu2 X i) 0) as [ | Ne]; auto. destruct (B Ne Z).
  Qed.
  Lemma sound_limit t moles lu o : 345 <= t -> length moles = length prs -> (forall x, In x moles -> 0 <= x) ->
    (exists x, In x moles /\ 0 < x) ->
    forall eps, 0 < eps -> exists V0, forall v, V0 < v ->
      exists r, residual lu (with_options p o) (@state_new RNum t v moles) = Some r /\ Rabs r < eps.
  Proof.
    intros Ht Hl Hnn Hne. rewrite <- len_p in Hl.
    apply (C06_residual_warm prs bin p Hp sound_phys); auto.
    - lra.
    - intros i Hi. apply Hnn, nth_In. rewrite Hl. auto.
    - destruct Hne as (x & Ix & Px). destruct (In_nth _ _ 0 Ix) as (i & Hi & E). exists i. rewrite <- Hl. split; auto. rewrite E. auto.
    - intros i Hi H. destruct (sound_polar i Hi H). split; auto. lra.
  Qed.
  Lemma sound_finite t v moles lu lu2 o : 345 <= t -> phys_state p t v moles ->
    let eta := Eta X t (fun i => nth i moles 0 / v) in
    eta <= 74 / 100 ->
    ((exists i, (i < n)%nat /\ Qu2 X i <> 0) -> 22 / 100 <= eta) ->
    ((exists i j, (i < n)%nat /\ (j < n)%nat /\ Mu2 X i <> 0 /\ Qu2 X j <> 0) -> 44 / 100 <= eta) ->
    (p_nassoc p <= 1)%nat ->
    exists r, residual lu (with_options p o) (@state_new RNum t v moles) = Some r /\
              residual lu2 (with_options (xparams p) (xoptions o)) (xstate t v moles) = Some (Fin r).
  Proof.
    intros Ht PS eta He Hq Hd Hn.
    apply (C07_residual_warm prs bin p Hp sound_phys t v moles PS); auto.
    - intros i Hi H. destruct (sound_polar i Hi H) as [A B]. split; auto. lra.
    - intros a Ha. assert (Ia : (a < length (p_m p))%nat).
      { assert (I : In a (p_assoc_comp p)) by (rewrite Ha; left; auto).
        rewrite (w_ass _ (wfp_from_records _ _ _ Hp)) in I. apply filter_In in I. destruct I as [I _]. apply in_seq in I. lia. }
      split; [exact sound_assoc | ].
      destruct (sound_sites a Ia) as [A B]. split; [lra | ]. intros _. lra.
  Qed.
End Sound.

Section SoundPure.
  Variables (pr : pure_record RNum) (p : params RNum).
  Hypothesis Hs : sound_record (pr_model pr).
  Hypothesis Hp : new_pure pr = Some p.
  Lemma sound_functional : 1 <= r_m (pr_model pr) ->
    forall t v N fv lu (o : options RNum) dim, o_dq o = DQ35 -> phys_state p t v [N] ->
    @f_eps RNum < N / v -> 1 / 100000 <= Eta (mix_of p) t (fun i => nth i [N] 0 / v) ->
    same_density (f_bulk lu (f_with_options p fv o) t dim (s_rho (@state_new RNum t v [N])))
      (residual lu (with_options p o) (@state_new RNum t v [N])) v.
  Proof.
    intros Hm t v N fv lu o dim Ho PS Hd Hn.
    assert (Ha : forall pr', In pr' [pr] -> sound_record (pr_model pr')) by (intros pr' [<- | []]; auto).
    unfold new_pure in Hp.
    assert (Hph := sound_phys _ _ p Ha Hp).
    assert (L1 : length (p_m p) = 1%nat) by exact (len_p _ _ _ Hp).
    destruct (rec_at _ _ p Ha Hp 0%nat ltac:(lia)) as (pr' & Epr & S & Em & _).
    assert (pr' = pr) as -> by (cbn in Epr; congruence).
    assert (K0 : nth 0 (nth 0 (p_k_ij p) []) 0 = 0) by (rewrite (from_records_raw_of _ _ _ Hp); reflexivity).
    rewrite <- Em in Hm.
    assert (Hpol : p_ndipole p = 0%nat \/ p_nquadpole p = 0%nat).
    { destruct (C17_index_sets _ _ _ Hp (sound_physical _ Ha)) as (A & B & _ & -> & -> & _).
      destruct (sr_one _ S) as [Z | Z]; [left; apply (count_none _ _ _ A) | right; apply (count_none _ _ _ B)];
        intros q [<- | []] Q; apply Q, Z. }
    apply (C09_pure _ _ p Hp Hph L1 t v [N] PS K0); auto.
    unfold density. cbn [rsum]. rewrite Rplus_0_r. auto.
  Qed.
End SoundPure.

Lemma build (prs : list (pure_record RNum)) (bin : list (list R)) : (length prs <= length bin)%nat ->
  (forall row, In row bin -> (length prs <= length row)%nat) -> exists p, from_records prs bin = Some p.
Proof.
  intros Hr Hc. exists (@from_records_raw RNum prs bin). unfold from_records.
  replace (@binary_ok RNum (length prs) bin) with true; auto. symmetry. unfold binary_ok.
  apply andb_true_iff. split; [apply Nat.leb_le; auto | ]. apply forallb_forall. intros row I. apply Nat.leb_le; auto.
Qed.

(** Every mixture of shipped substances, in any number and with any interaction parameters (one
    row and column per substance at least), can be built.  Its parameters are physical. *)
Theorem C48_mixture (es : list entry) (bin : list (list R)) :
  (forall e, In e es -> In e shipped) -> (length es <= length bin)%nat -> (forall row, In row bin -> (length es <= length row)%nat) ->
  exists (prs : list (pure_record RNum)) p, read_all es = Some prs /\ from_records prs bin = Some p /\ length (p_m p) = length es /\
    phys p /\ assoc_phys p /\
    forall i, (i < length es)%nat ->
      (1 <= Na (mix_of p) i <= 2 /\ 1 <= Nb (mix_of p) i <= 2) /\
      (Mu2 (mix_of p) i <> 0 \/ Qu2 (mix_of p) i <> 0 -> 1 <= M (mix_of p) i /\ Ep (mix_of p) i <= 345) /\
      (Mu2 (mix_of p) i = 0 \/ Qu2 (mix_of p) i = 0).
Proof.
  intros Hes Hr Hc. destruct (read_shipped es Hes) as (prs & E & L & _). exists prs. rewrite <- L in Hr, Hc.
  destruct (build prs bin Hr Hc) as (p & Hp). exists p. pose proof (len_p prs bin p Hp) as Ln. rewrite L in Ln.
  pose proof (all_sound es Hes prs E) as Hs.
  split; auto. split; auto. split; auto. split; [apply (sound_phys prs bin); auto | ].
  split; [apply (sound_assoc prs bin); auto | ]. intros i Hi. rewrite <- Ln in Hi.
  split; [apply (sound_sites prs bin); auto | ]. split; [apply (sound_polar prs bin); auto | ].
  apply (sound_one prs bin); auto.
Qed.

(** At 345 K and above: the residual Helmholtz energy of every mixture of shipped substances
    vanishes at low density. *)
Theorem C48_ideal_gas_limit es (bin : list (list R)) (prs : list (pure_record RNum)) p : (forall e, In e es -> In e shipped) ->
  read_all es = Some prs -> from_records prs bin = Some p ->
  forall t moles lu o, 345 <= t -> length moles = length es -> (forall x, In x moles -> 0 <= x) -> (exists x, In x moles /\ 0 < x) ->
  forall eps, 0 < eps -> exists V0, forall v, V0 < v ->
    exists r, residual lu (with_options p o) (@state_new RNum t v moles) = Some r /\ Rabs r < eps.
Proof.
  intros Hes Hprs Hp t moles lu o Ht Hl. apply (sound_limit prs bin); auto.
  - apply (all_sound es); auto.
  - rewrite Hl. symmetry. apply (len_all es); auto.
Qed.

(** At 345 K and above: finite in floating point semantics, up to the packing fraction 0.74. *)
Theorem C48_finite es (bin : list (list R)) (prs : list (pure_record RNum)) p : (forall e, In e es -> In e shipped) ->
  read_all es = Some prs -> from_records prs bin = Some p ->
  forall t v moles lu lu2 o, 345 <= t -> phys_state p t v moles ->
  let X := mix_of p in let eta := Eta X t (fun i => nth i moles 0 / v) in
  eta <= 74 / 100 ->
  ((exists i, (i < length es)%nat /\ Qu2 X i <> 0) -> 22 / 100 <= eta) ->
  ((exists i j, (i < length es)%nat /\ (j < length es)%nat /\ Mu2 X i <> 0 /\ Qu2 X j <> 0) -> 44 / 100 <= eta) ->
  (p_nassoc p <= 1)%nat ->
  exists r, residual lu (with_options p o) (@state_new RNum t v moles) = Some r /\
            residual lu2 (with_options (xparams p) (xoptions o)) (xstate t v moles) = Some (Fin r).
Proof.
  intros Hes Hprs Hp t v moles lu lu2 o Ht PS X eta.
  rewrite <- (len_all es Hes prs Hprs), <- (len_p prs bin p Hp).
  apply (sound_finite prs bin); auto. apply (all_sound es); auto.
Qed.

(** For every shipped substance but argon the functional of the bulk fluid, in every version, is
    the equation of state. *)
Theorem C48_functional e (pr : pure_record RNum) p : In e shipped -> en_name e <> "argon"%string ->
  read_pure e = Some pr -> new_pure pr = Some p ->
  forall t v N fv lu (o : options RNum) dim, o_dq o = DQ35 -> phys_state p t v [N] ->
  @f_eps RNum < N / v -> 1 / 100000 <= Eta (mix_of p) t (fun i => nth i [N] 0 / v) ->
  same_density (f_bulk lu (f_with_options p fv o) t dim (s_rho (@state_new RNum t v [N])))
    (residual lu (with_options p o) (@state_new RNum t v [N])) v.
Proof.
  intros He Hna Er Hp. destruct (C48_substances e He) as (pr' & Er' & S & _ & _ & _ & A). rewrite Er in Er'.
  assert (pr' = pr) as -> by (symmetry; exact (Some_inj _ _ Er')).
  apply (sound_functional pr p S Hp). destruct (Rle_lt_dec 1 (r_m (pr_model pr))); auto. exfalso. auto.
Qed.

Definition e_argon : entry :=
  mkEntry "argon" 39.948 [("m"%string, QN 0.9285); ("sigma"%string, QN 3.4784); ("epsilon_k"%string, QN 122.23)].
Lemma argon_shipped : In e_argon shipped.
Proof. apply in_or_app. left. unfold gross2001. repeat (first [left; reflexivity | right]). Qed.
Lemma argon_read : read_pure e_argon = Some pr_argon.
Proof. reflexivity. Qed.
(** Argon has less than one segment; its default functional is not its equation of state. *)
Theorem C48_functional_refuted : exists e (pr : pure_record RNum) p t v N, In e shipped /\ read_pure e = Some pr /\ new_pure pr = Some p /\
  phys_state p t v [N] /\ @f_eps RNum < N / v /\ 1 / 100000 <= Eta (mix_of p) t (fun i => nth i [N] 0 / v) /\
  forall lu dim, ~ same_density (f_bulk lu (f_new p) t dim (s_rho (@state_new RNum t v [N])))
    (residual lu (eos_new p) (@state_new RNum t v [N])) v.
Proof.
  exists e_argon, pr_argon, argon, 150, 1000, 10.
  split; [exact argon_shipped | ]. split; [exact argon_read | ]. split; [exact argon_ok | ]. split; [exact argon_state | ].
  split; [pose proof argon_eps as H; unfold density in H; cbn [rsum] in H; rewrite Rplus_0_r in H; exact H | ].
  split; [exact argon_eta | ]. intros lu dim. destruct argon_short_chain as (_ & _ & _ & _ & H). apply (H lu dim).
Qed.
