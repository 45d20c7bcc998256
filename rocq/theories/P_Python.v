(** C50: the Python constructors accept what their documentation says and build what the Rust
    constructors build. *)
From Coq Require Import ZArith QArith Reals Lra Lia String List Bool Permutation.
From Verif Require Import Num RNum Tables M_Params M_Eos M_Dft M_Text M_Python P_Text.
Import ListNotations.
Local Open Scope string_scope.
Set Bullet Behavior "Strict Subproofs".
Notation length := List.length.

(* -------------------------------------------------------------------- argument binding *)

Section Binding.
  Context {K : Num}.
  Notation V := (pyval K).
  Implicit Types (sg : signature K) (pos vals : list V) (kw : list (string * V)).

  (** [vals] are the values of the parameters of [sg]: the first ones given by position, the
      others by keyword or by default, every keyword used for exactly one of the others *)
  Definition binds sg pos kw vals : Prop :=
    length vals = length sg /\ NoDup (map fst kw) /\
    exists rest, vals = (pos ++ rest)%list /\
      (forall k v, In (k, v) kw -> exists i, (length pos <= i)%nat /\ nth_error (map fst sg) i = Some k) /\
      (forall i k d v, (length pos <= i)%nat -> nth_error sg i = Some (k, d) -> nth_error vals i = Some v ->
        In (k, v) kw \/ (~ In k (map fst kw) /\ d = Some v)).

  Lemma has_key_in {A} key (l : list (string * A)) : has_key key l = true <-> In key (map fst l).
  Proof.
    unfold has_key. rewrite existsb_exists. split.
    - intros ((k, a) & I & E). apply String.eqb_eq in E. cbn in E. subst. apply in_map_iff. exists (key, a). auto.
    - intros I. apply in_map_iff in I. destruct I as ((k, a) & <- & I). exists (k, a). split; auto. apply String.eqb_refl.
  Qed.
  Lemma repeated_nodup {A} (l : list (string * A)) : repeated l = false <-> NoDup (map fst l).
  Proof.
    induction l as [ | (k, a) l IH]; cbn [repeated map fst].
    - split; auto. constructor.
    - rewrite orb_false_iff, IH. split.
      + intros [H N]. constructor; auto. rewrite <- has_key_in, H. discriminate.
      + intros N. inversion N; subst. split; auto. apply not_true_iff_false. rewrite has_key_in. auto.
  Qed.
  Lemma lookup_in {A} key (l : list (string * A)) a : NoDup (map fst l) -> (lookup key l = Some a <-> In (key, a) l).
  Proof.
    induction l as [ | (k, b) l IH]; cbn [lookup map fst]; intros N.
    - split; [discriminate | intros []].
    - inversion N; subst. destruct (String.eqb k key) eqn:E.
      + apply String.eqb_eq in E. subst k. split.
        * intros H. left. congruence.
        * intros [H | H]; [congruence | ]. exfalso. apply H1. apply in_map_iff. exists (key, a). auto.
      + rewrite IH by auto. apply String.eqb_neq in E. split; [right; auto | ]. intros [H | H]; auto. congruence.
  Qed.
  Lemma lookup_none {A} key (l : list (string * A)) : lookup key l = None <-> ~ In key (map fst l).
  Proof.
    induction l as [ | (k, b) l IH]; cbn [lookup map fst]; [split; auto; intros _ [] | ].
    destruct (String.eqb k key) eqn:E.
    - apply String.eqb_eq in E. subst. split; [discriminate | ]. intros H. exfalso. apply H. left. auto.
    - apply String.eqb_neq in E. rewrite IH. cbn [In]. tauto.
  Qed.
  Lemma fill_spec sg kw vals : NoDup (map fst kw) ->
    fill sg kw = Some vals <-> (length vals = length sg /\ forall i k d v, nth_error sg i = Some (k, d) -> nth_error vals i = Some v ->
      In (k, v) kw \/ (~ In k (map fst kw) /\ d = Some v)).
  Proof.
    intros N. revert vals. induction sg as [ | (k, d) sg IH]; intros vals; cbn [fill].
    - split.
      + intros H. injection H as <-. split; auto. intros [ | i]; discriminate.
      + intros [L _]. destruct vals; [auto | discriminate].
    - split.
      + intros H. destruct (lookup k kw) as [v | ] eqn:E.
        * destruct (fill sg kw) as [l | ]; [ | discriminate]. injection H as <-. destruct (proj1 (IH l) eq_refl) as [L G].
          split; [cbn; auto | ]. intros [ | i] k' d' v' A B; cbn in A, B; [ | eauto].
          injection A as <- <-. injection B as <-. left. apply lookup_in; auto.
        * destruct d as [v | ]; [ | discriminate]. destruct (fill sg kw) as [l | ]; [ | discriminate]. injection H as <-.
          destruct (proj1 (IH l) eq_refl) as [L G].
          split; [cbn; auto | ]. intros [ | i] k' d' v' A B; cbn in A, B; [ | eauto].
          injection A as <- <-. injection B as <-. right. split; auto. apply lookup_none. auto.
      + intros [L G]. destruct vals as [ | v vals]; [discriminate | ].
        assert (F : fill sg kw = Some vals).
        { apply IH. split; [cbn in L; lia | ]. intros i k' d' v' A B. exact (G (S i) k' d' v' A B). }
        rewrite F. destruct (G 0%nat k d v eq_refl eq_refl) as [I | [I ->]].
        * apply (lookup_in _ _ _ N) in I. rewrite I. auto.
        * apply lookup_none in I. rewrite I. auto.
  Qed.

  (** a call is accepted exactly if its arguments determine the values of all parameters *)
  Theorem C50_call sg pos kw vals : bind_args sg pos kw = Some vals <-> binds sg pos kw vals.
  Proof.
    unfold bind_args, binds. set (n := length pos).
    assert (Hs : forall i, nth_error (skipn n sg) i = nth_error sg (n + i)).
    { intros i. rewrite <- (firstn_skipn n sg) at 2. destruct (Nat.le_gt_cases n (length sg)) as [Hl | Hl].
      - rewrite nth_error_app2 by (rewrite firstn_length; lia). f_equal. rewrite firstn_length. lia.
      - rewrite skipn_all2 by lia. rewrite app_nil_r. destruct i; symmetry; apply nth_error_None; rewrite firstn_length; lia. }
    split.
    - destruct (Nat.ltb (length sg) n) eqn:E1; [discriminate | ]. destruct (repeated kw) eqn:E2; [discriminate | ].
      destruct (forallb _ kw) eqn:E3; [ | discriminate]. cbn [orb negb].
      destruct (fill (skipn n sg) kw) as [l | ] eqn:E4; [ | discriminate]. intros H. injection H as <-.
      apply Nat.ltb_ge in E1. apply repeated_nodup in E2. apply (fill_spec _ _ _ E2) in E4. destruct E4 as [L G].
      rewrite skipn_length in L. split; [rewrite app_length; fold n; lia | ]. split; auto. exists l. split; auto. split.
      + intros k v I. rewrite forallb_forall in E3. specialize (E3 _ I). cbn in E3. apply has_key_in in E3.
        apply In_nth_error in E3. destruct E3 as (i & Hi). exists (n + i)%nat. split; [lia | ].
        rewrite nth_error_map in Hi |- *. rewrite Hs in Hi. exact Hi.
      + intros i k d v Hi A B. apply (G (i - n)%nat).
        * rewrite Hs. rewrite <- A. f_equal. lia.
        * rewrite nth_error_app2 in B by (fold n; lia). exact B.
    - intros (L & N & l & -> & A & B).
      assert (E1 : Nat.ltb (length sg) n = false) by (apply Nat.ltb_ge; rewrite app_length in L; fold n in L; lia).
      rewrite E1. rewrite (proj2 (repeated_nodup kw) N). cbn [orb].
      assert (E3 : forallb (fun kv => has_key (fst kv) (skipn n sg)) kw = true).
      { apply forallb_forall. intros (k, v) I. apply has_key_in. destruct (A k v I) as (i & Hi & E). cbn [fst].
        apply (nth_error_In _ (i - n)). rewrite nth_error_map in E |- *. rewrite Hs. replace (n + (i - n))%nat with i by (fold n in Hi; lia). exact E. }
      rewrite E3. cbn [negb].
      assert (E4 : fill (skipn n sg) kw = Some l).
      { apply (fill_spec _ _ _ N). split; [rewrite skipn_length; rewrite app_length in L; fold n in L; lia | ].
        intros i k d v Hi Hv. rewrite Hs in Hi. apply (B (n + i)%nat k d v); [fold n; lia | auto | ].
        rewrite nth_error_app2 by (fold n; lia). fold n. replace (n + i - n)%nat with i by lia. auto. }
      rewrite E4. reflexivity.
  Qed.

  (** the order of keyword arguments is irrelevant *)
  Theorem C50_keyword_order sg pos kw kw' : Permutation kw kw' -> bind_args sg pos kw = bind_args sg pos kw'.
  Proof.
    intros P.
    assert (G : forall k k' vals, Permutation k k' -> bind_args sg pos k = Some vals -> bind_args sg pos k' = Some vals).
    { clear. intros kw kw' vals P H. apply C50_call in H. apply C50_call. destruct H as (L & N & l & E & A & B).
      split; auto. split; [exact (Permutation_NoDup (Permutation_map fst P) N) | ]. exists l. split; auto. split.
      - intros k v I. apply (A k v). apply (Permutation_in _ (Permutation_sym P)). auto.
      - intros i k d v Hi Hs Hv. destruct (B i k d v Hi Hs Hv) as [I | [I Hd]].
        + left. apply (Permutation_in _ P). auto.
        + right. split; auto. intros C. apply I. apply (Permutation_in _ (Permutation_map fst (Permutation_sym P))). auto. }
    destruct (bind_args sg pos kw) as [vals | ] eqn:E.
    - symmetry. apply (G kw kw'); auto.
    - destruct (bind_args sg pos kw') as [vals | ] eqn:E'; auto.
      assert (bind_args sg pos kw = Some vals) by (apply (G kw' kw); auto; apply Permutation_sym; auto). congruence.
  Qed.

  (** arguments may be moved from position to keyword *)
  Theorem C50_positional_or_keyword sg pos a k d kw vals : NoDup (map fst sg) -> nth_error sg (length pos) = Some (k, d) ->
    bind_args sg (pos ++ [a])%list kw = Some vals -> bind_args sg pos ((k, a) :: kw) = Some vals.
  Proof.
    intros Ns Hk H. apply C50_call in H. apply C50_call. destruct H as (L & N & l & E & A & B).
    rewrite app_length in A, B. cbn [List.length] in A, B.
    split; auto. rewrite <- app_assoc in E. cbn [app] in E.
    assert (Hn : nth_error (map fst sg) (length pos) = Some k) by (rewrite nth_error_map, Hk; reflexivity).
    assert (U : forall i, nth_error (map fst sg) i = Some k -> i = length pos).
    { intros i Hi. apply (proj1 (NoDup_nth_error (map fst sg)) Ns).
      - apply nth_error_Some. rewrite Hi. discriminate.
      - congruence. }
    assert (Nk : ~ In k (map fst kw)).
    { intros I. apply in_map_iff in I. destruct I as ((k', v) & <- & I). destruct (A _ _ I) as (i & Hi & Ei).
      apply U in Ei. lia. }
    split; [cbn; constructor; auto | ]. exists (a :: l). split; auto. split.
    - intros k' v [I | I].
      + injection I as <- <-. exists (length pos). auto.
      + destruct (A k' v I) as (i & Hi & Ei). exists i. split; [lia | auto].
    - intros i k' d' v Hi Hs Hv. destruct (Nat.eq_dec i (length pos)) as [-> | Hne].
      + rewrite Hk in Hs. injection Hs as <- <-. left. left. subst vals.
        rewrite nth_error_app2 in Hv by lia. rewrite Nat.sub_diag in Hv. cbn in Hv. congruence.
      + destruct (B i k' d' v ltac:(lia) Hs Hv) as [I | [I ->]]; [left; right; auto | ].
        right. split; auto. cbn. intros [-> | C]; auto. apply Hne. apply U. rewrite nth_error_map, Hs. reflexivity.
  Qed.

  (** arguments equal to the default may be left out, provided they are given by keyword *)
  Theorem C50_default sg pos k d kw vals : NoDup (map fst sg) -> In (k, Some d) sg ->
    bind_args sg pos ((k, d) :: kw) = Some vals -> bind_args sg pos kw = Some vals.
  Proof.
    intros Ns Hd H. apply C50_call in H. apply C50_call. destruct H as (L & N & l & E & A & B).
    inversion N as [ | x m Nk N']; subst x m.
    split; auto. split; auto. exists l. split; auto. split.
    - intros k' v I. apply (A k' v). right; auto.
    - intros i k' d' v Hi Hs Hv. destruct (B i k' d' v Hi Hs Hv) as [[I | I] | [I ->]]; auto.
      + injection I as <- <-. right. split; auto.
        apply In_nth_error in Hd. destruct Hd as (j & Hj).
        assert (i = j).
        { apply (proj1 (NoDup_nth_error (map fst sg)) Ns); [apply nth_error_Some | ]; rewrite !nth_error_map, Hs; [discriminate | ].
          rewrite Hj. reflexivity. }
        subst j. congruence.
      + right. split; auto. intros C. apply I. right; auto.
  Qed.

  (** what is refused *)
  Theorem C50_unknown_keyword sg pos k v kw : In (k, v) kw -> ~ In k (map fst sg) -> bind_args sg pos kw = None.
  Proof.
    intros I Nk. destruct (bind_args sg pos kw) as [vals | ] eqn:E; auto. exfalso. apply C50_call in E.
    destruct E as (_ & _ & l & _ & A & _). destruct (A k v I) as (i & _ & Hi). apply Nk. apply (nth_error_In _ _ Hi).
  Qed.
  Theorem C50_missing sg pos k kw i : nth_error sg i = Some (k, None) -> (length pos <= i)%nat -> ~ In k (map fst kw) ->
    bind_args sg pos kw = None.
  Proof.
    intros Hi Hp Nk. destruct (bind_args sg pos kw) as [vals | ] eqn:E; auto. exfalso. apply C50_call in E.
    destruct E as (L & _ & l & _ & _ & B).
    assert (Hv : exists v, nth_error vals i = Some v).
    { destruct (nth_error vals i) eqn:E; [eauto | ]. apply nth_error_None in E.
      assert (i < length sg)%nat by (apply nth_error_Some; congruence). lia. }
    destruct Hv as (v & Hv). destruct (B i k None v Hp Hi Hv) as [I | [_ I]]; [ | discriminate].
    apply Nk. apply in_map_iff. exists (k, v). auto.
  Qed.
  Theorem C50_given_twice sg pos kw k v i : NoDup (map fst sg) -> (i < length pos)%nat -> nth_error (map fst sg) i = Some k ->
    In (k, v) kw -> bind_args sg pos kw = None.
  Proof.
    intros Ns Hi Hk I. destruct (bind_args sg pos kw) as [vals | ] eqn:E; auto. exfalso. apply C50_call in E.
    destruct E as (_ & _ & l & _ & A & _). destruct (A k v I) as (j & Hj & Ej).
    assert (i = j); [ | lia]. apply (proj1 (NoDup_nth_error (map fst sg)) Ns); [apply nth_error_Some | ]; congruence.
  Qed.
  Theorem C50_too_many sg pos kw : (length sg < length pos)%nat -> bind_args sg pos kw = None.
  Proof.
    intros H. unfold bind_args. apply Nat.ltb_lt in H. rewrite H. reflexivity.
  Qed.
End Binding.

(* --------------------------------------------------------------------------- PcSaftRecord *)

Section Record.
  Context {K : Num}.
  Notation V := (pyval K).

  (** a number, as Python shows it after it has passed through f64 *)
  Definition number (v : V) : option V := match to_f64 v with PyOk x => Some (PyFloat x) | _ => None end.
  Definition number_or_none (v : V) : option V := match v with PyNone => Some PyNone | _ => number v end.
  Fixpoint numbers (l : list V) : option (list V) :=
    match l with
    | [] => Some []
    | v :: l => match number v, numbers l with Some a, Some b => Some (a :: b) | _, _ => None end
    end.
  Definition array_or_none (n : nat) (v : V) : option V :=
    match v with
    | PyNone => Some PyNone
    | PySeq l => if Nat.eqb (length l) n then option_map PySeq (numbers l) else None
    | _ => None
    end.
  (** the documented parameters with the values they take and how these are seen afterwards *)
  Definition record_parameters : list (string * (V -> option V)) :=
    [("m", number); ("sigma", number); ("epsilon_k", number); ("mu", number_or_none); ("q", number_or_none);
     ("kappa_ab", number_or_none); ("epsilon_k_ab", number_or_none); ("na", number_or_none); ("nb", number_or_none);
     ("viscosity", array_or_none 4); ("diffusion", array_or_none 5); ("thermal_conductivity", array_or_none 4)].

  Lemma to_f64_number v : match to_f64 v with PyOk x => number v = Some (PyFloat x) | _ => number v = None end.
  Proof. unfold number. destruct (to_f64 v); reflexivity. Qed.
  Lemma to_option_number v : match to_option to_f64 v with
    | PyOk o => number_or_none v = Some (from_opt PyFloat o) | _ => number_or_none v = None end.
  Proof. destruct v; cbn; reflexivity. Qed.
  Lemma to_f64s_numbers l : match to_f64s l with PyOk xs => numbers l = Some (map PyFloat xs) /\ length xs = length l | _ => numbers l = None end.
  Proof.
    induction l as [ | v l IH]; cbn [to_f64s numbers pybind]; [split; reflexivity | ].
    pose proof (to_f64_number v) as H. destruct (to_f64 v); cbn [pybind]; rewrite H; auto.
    destruct (to_f64s l); cbn [pybind]; try (rewrite IH; reflexivity). destruct IH as [-> L]. cbn. auto.
  Qed.
  Lemma to_option_arr4 v : match to_option to_arr4 v with
    | PyOk o => array_or_none 4 v = Some (from_opt (fun a => from_f64s (l4 a)) o) | _ => array_or_none 4 v = None end.
  Proof.
    destruct v; cbn [to_option to_arr4 pybind array_or_none]; auto.
    destruct (Nat.eqb (length l) 4) eqn:E; cbn [pybind]; auto. apply Nat.eqb_eq in E.
    pose proof (to_f64s_numbers l) as H. destruct (to_f64s l) as [xs | | | | ]; cbn [pybind]; try (rewrite H; reflexivity).
    destruct H as [H L]. rewrite E in L. destruct xs as [ | a [ | b [ | c [ | d [ | ]]]]]; try discriminate L.
    cbn [pybind]. rewrite H. reflexivity.
  Qed.
  Lemma to_option_arr5 v : match to_option to_arr5 v with
    | PyOk o => array_or_none 5 v = Some (from_opt (fun a => from_f64s (l5 a)) o) | _ => array_or_none 5 v = None end.
  Proof.
    destruct v; cbn [to_option to_arr5 pybind array_or_none]; auto.
    destruct (Nat.eqb (length l) 5) eqn:E; cbn [pybind]; auto. apply Nat.eqb_eq in E.
    pose proof (to_f64s_numbers l) as H. destruct (to_f64s l) as [xs | | | | ]; cbn [pybind]; try (rewrite H; reflexivity).
    destruct H as [H L]. rewrite E in L. destruct xs as [ | a [ | b [ | c [ | d [ | e [ | ]]]]]]; try discriminate L.
    cbn [pybind]. rewrite H. reflexivity.
  Qed.

  Definition admissible (vals : list V) : Prop := Forall2 (fun kf v => snd kf v <> None) record_parameters vals.
  Ltac bad H := cbn [pybind]; intros vals E A; injection E as <-; unfold admissible, record_parameters in A;
      repeat match goal with X : Forall2 _ (_ :: _) (_ :: _) |- _ => inversion X; clear X; subst end; cbn [snd] in *; congruence.
  Lemma record_new_spec pos kw : match py_record_new pos kw with
    | PyOk r => exists vals, bind_args record_signature pos kw = Some vals /\
        Forall2 (fun kf v => exists w, snd kf v = Some w /\ py_record_get r (fst kf) = Some w) record_parameters vals
    | _ => forall vals, bind_args record_signature pos kw = Some vals -> ~ admissible vals
    end.
  Proof.
    unfold py_record_new.
    assert (Len : forall vals, bind_args record_signature pos kw = Some vals -> length vals = 12%nat).
    { intros vals H. apply C50_call in H. destruct H as (L & _). exact L. }
    destruct (bind_args record_signature pos kw) as [vals | ]; [ | intros vals H; discriminate H].
    specialize (Len vals eq_refl).
    destruct vals as [ | v1 [ | v2 [ | v3 [ | v4 [ | v5 [ | v6 [ | v7 [ | v8 [ | v9 [ | v10 [ | v11 [ | v12 [ | ]]]]]]]]]]]]]; try discriminate Len.
    pose proof (to_f64_number v1) as H1. pose proof (to_f64_number v2) as H2. pose proof (to_f64_number v3) as H3.
    pose proof (to_option_number v4) as H4. pose proof (to_option_number v5) as H5. pose proof (to_option_number v6) as H6.
    pose proof (to_option_number v7) as H7. pose proof (to_option_number v8) as H8. pose proof (to_option_number v9) as H9.
    pose proof (to_option_arr4 v10) as H10. pose proof (to_option_arr5 v11) as H11. pose proof (to_option_arr4 v12) as H12.
    destruct (to_f64 v1); try (bad H1). destruct (to_f64 v2); try (bad H2). destruct (to_f64 v3); try (bad H3).
    destruct (to_option to_f64 v4); try (bad H4). destruct (to_option to_f64 v5); try (bad H5). destruct (to_option to_f64 v6); try (bad H6).
    destruct (to_option to_f64 v7); try (bad H7). destruct (to_option to_f64 v8); try (bad H8). destruct (to_option to_f64 v9); try (bad H9).
    destruct (to_option to_arr4 v10); try (bad H10). destruct (to_option to_arr5 v11); try (bad H11). destruct (to_option to_arr4 v12); try (bad H12).
    cbn [pybind]. eexists. split; [reflexivity | ]. unfold record_parameters.
    repeat (constructor; [cbn [fst snd]; eexists; split; [eassumption | reflexivity] | ]). constructor.
  Qed.

  (** The constructor accepts exactly the calls whose arguments bind to admissible values, and the
      record then shows under every name the value given (or the default) for that name. *)
  Theorem C50_record pos kw :
    (exists r, py_record_new pos kw = PyOk r) <-> (exists vals, bind_args record_signature pos kw = Some vals /\ admissible vals).
  Proof.
    pose proof (record_new_spec pos kw) as H. split.
    - intros (r & E). rewrite E in H. destruct H as (vals & B & F). exists vals. split; auto.
      unfold admissible. clear -F. induction F; constructor; auto. destruct H as (w & -> & _). discriminate.
    - intros (vals & B & A). destruct (py_record_new pos kw) as [r | | | | ]; [eauto | | | | ]; exfalso; apply (H vals B A).
  Qed.
  Theorem C50_record_values pos kw r vals i name view v :
    py_record_new pos kw = PyOk r -> bind_args record_signature pos kw = Some vals ->
    nth_error record_parameters i = Some (name, view) -> nth_error vals i = Some v -> py_record_get r name = view v.
  Proof.
    intros E B Hi Hv. pose proof (record_new_spec pos kw) as H. rewrite E in H. destruct H as (vals' & B' & F).
    rewrite B in B'. injection B' as <-. revert i Hi Hv. clear -F. induction F as [ | kf w l l' Hh F IH]; intros [ | i] Hi Hv; cbn in Hi, Hv; try discriminate.
    - injection Hi as ->. injection Hv as ->. destruct Hh as (w & A & B). cbn [fst snd] in *. congruence.
    - eauto.
  Qed.

  (** keyword arguments that reproduce a record: what its getters return *)
  Definition all_getters (r : pcsaft_record K) : list (string * V) :=
    map (fun kf => (fst kf, match py_record_get r (fst kf) with Some v => v | None => PyNone end)) record_parameters.
  Theorem C50_record_copy (r : pcsaft_record K) kw : Permutation kw (all_getters r) -> py_record_new [] kw = PyOk r.
  Proof.
    intros P. unfold py_record_new. rewrite (C50_keyword_order _ _ _ _ P). destruct r as [m s e mu q ka ea na nb vi di th].
    assert (E : bind_args record_signature [] (all_getters (mkRec m s e mu q ka ea na nb vi di th))
      = Some (map snd (all_getters (mkRec m s e mu q ka ea na nb vi di th)))) by reflexivity.
    rewrite E. cbn [all_getters record_parameters map fst snd py_record_get lookup String.eqb Ascii.eqb Bool.eqb
      r_m r_sigma r_epsilon_k r_mu r_q r_kappa_ab r_epsilon_k_ab r_na r_nb r_viscosity r_diffusion r_thermal].
    assert (O : forall o : option (car K), to_option to_f64 (from_opt PyFloat o) = PyOk o) by (intros []; reflexivity).
    assert (A4 : forall o : option (arr4 K), to_option to_arr4 (from_opt (fun a => from_f64s (l4 a)) o) = PyOk o) by (intros [[[[a b] c] d] | ]; reflexivity).
    assert (A5 : forall o : option (arr5 K), to_option to_arr5 (from_opt (fun a => from_f64s (l5 a)) o) = PyOk o) by (intros [[[[[a b] c] d] e'] | ]; reflexivity).
    rewrite !O, !A4, A5. reflexivity.
  Qed.
End Record.

(* --------------------------------------------------------------------------- eval(repr(record)) *)

Section Repr.
  Context {K : Num}.
  Notation V := (pyval K).

  Definition set_only {A} (L : list (string * option A)) : list (string * A) :=
    flat_map (fun kv => match snd kv with Some v => [(fst kv, v)] | None => [] end) L.
  Lemma set_only_keys {A} (L : list (string * option A)) k : In k (map fst (set_only L)) -> In k (map fst L).
  Proof.
    unfold set_only. rewrite !in_map_iff. intros ([k' v] & <- & H). apply in_flat_map in H. destruct H as ([k2 o] & I & H).
    cbn [fst snd] in *. destruct o; [ | destruct H]. destruct H as [H | []]. injection H as <- <-. exists (k2, Some a). auto.
  Qed.
  Lemma set_only_NoDup {A} (L : list (string * option A)) : NoDup (map fst L) -> NoDup (map fst (set_only L)).
  Proof.
    induction L as [ | [k [v | ]] L IH]; cbn; intros N; auto; inversion N; subst; auto.
    constructor; auto. intros I. apply H1. apply (set_only_keys L k I).
  Qed.
  Lemma set_only_lookup {A} (L : list (string * option A)) k : NoDup (map fst L) ->
    lookup k (set_only L) = match lookup k L with Some (Some v) => Some v | _ => None end.
  Proof.
    induction L as [ | [k' [v | ]] L IH]; cbn [set_only flat_map map fst snd app lookup]; intros N; auto; inversion N; subst; fold (set_only L).
    - destruct (String.eqb k' k); auto.
    - destruct (String.eqb k' k) eqn:E; auto. apply String.eqb_eq in E. subst k'.
      assert (G : forall l : list (string * A), ~ In k (map fst l) -> lookup k l = None).
      { induction l as [ | [a b] l IHl]; cbn; auto. intros Hn. destruct (String.eqb a k) eqn:E; auto. apply String.eqb_eq in E. tauto. }
      apply G. intros I. apply H1, (set_only_keys L k I).
  Qed.

  (** the text of a number (of an array) is a Python literal of that value *)
  Definition literal (read : string -> option V) (s : string) (x : car K) : Prop :=
    exists v, read s = Some v /\ to_f64 v = PyOk x.
  Definition literals (read : string -> option V) (s : string) (l : list (car K)) : Prop :=
    exists v, read s = Some (PySeq v) /\ to_f64s v = PyOk l.
  Definition when {A} (P : A -> Prop) (o : option A) : Prop := match o with Some a => P a | None => True end.
  Definition legible (f : formatter K) (read : string -> option V) (r : pcsaft_record K) : Prop :=
    let num x := literal read (fmt_num f x) x in
    let arr l := literals read (fmt_dbg f l) l in
    num (r_m r) /\ num (r_sigma r) /\ num (r_epsilon_k r) /\ when num (r_mu r) /\ when num (r_q r) /\
    when num (r_kappa_ab r) /\ when num (r_epsilon_k_ab r) /\ when num (r_na r) /\ when num (r_nb r) /\
    when (fun a => arr (l4 a)) (r_viscosity r) /\ when (fun a => arr (l5 a)) (r_diffusion r) /\ when (fun a => arr (l4 a)) (r_thermal r).

  Lemma record_new_named m s e mu q ka ea na nb vi di th :
    let L := [("m", Some m); ("sigma", Some s); ("epsilon_k", Some e); ("mu", mu); ("q", q); ("kappa_ab", ka); ("epsilon_k_ab", ea);
      ("na", na); ("nb", nb); ("viscosity", vi); ("diffusion", di); ("thermal_conductivity", th)] in
    let d o := match o with Some v => v | None => PyNone end in
    bind_args (K := K) record_signature [] (set_only L) = Some [m; s; e; d mu; d q; d ka; d ea; d na; d nb; d vi; d di; d th].
  Proof.
    intros L d.
    assert (N : NoDup (map fst L)).
    { unfold L. cbn [map fst]. repeat constructor; cbn; intuition congruence. }
    apply C50_call. split; [reflexivity | ]. split; [apply set_only_NoDup; auto | ]. eexists. split; [reflexivity | ]. split.
    - intros k v I. assert (I' : In k (map fst L)) by (apply set_only_keys; apply (in_map fst) in I; exact I).
      apply In_nth_error in I'. destruct I' as (i & Hi). exists i. split; [cbn; lia | exact Hi].
    - intros i k o v _ Hk Hv.
      assert (A : forall k o, nth_error (map fst L) i = Some k -> nth_error (map snd L) i = Some o ->
        match o with Some v => In (k, v) (set_only L) | None => ~ In k (map fst (set_only L)) end).
      { intros k' o' E1 E2.
        assert (I : In (k', o') L).
        { rewrite nth_error_map in E1, E2. destruct (nth_error L i) as [[a b] | ] eqn:E; [ | discriminate].
          injection E1 as <-. injection E2 as <-. apply (nth_error_In _ _ E). }
        destruct o' as [w | ].
        - unfold set_only. apply in_flat_map. exists (k', Some w). split; auto. left; auto.
        - intros Hin. apply in_map_iff in Hin. destruct Hin as ([a b] & <- & Hin). cbn [fst] in *.
          unfold set_only in Hin. apply in_flat_map in Hin. destruct Hin as ([a' o2] & I2 & Hin). cbn [fst snd] in Hin.
          destruct o2; [ | destruct Hin]. destruct Hin as [Hin | []]. injection Hin as -> ->.
          apply In_nth_error in I, I2. destruct I as (i1 & I). destruct I2 as (i2 & I2).
          assert (i1 = i2).
          { apply (proj1 (NoDup_nth_error (map fst L)) N); [apply nth_error_Some; rewrite nth_error_map, I; discriminate | ].
            rewrite !nth_error_map, I, I2. reflexivity. }
          subst. congruence. }
      do 12 (destruct i as [ | i]; [cbn in Hk, Hv; injection Hk as <- <-; injection Hv as <-;
        specialize (A _ _ eq_refl eq_refl); cbn beta iota in A; 
        try match goal with |- context [d ?o] => destruct o; cbn [d] end; auto | ]).
      cbn in Hk. destruct i; discriminate.
  Qed.

  (** repr of a record is a call of the constructor that, evaluated, gives the record back. *)
  Theorem C50_repr (f : formatter K) (read : string -> option V) (r : pcsaft_record K) : legible f read r ->
    exists shown kw,
      py_record_repr f r = "PcSaftRecord(" ++ joined ", " (map (fun kv => fst kv ++ "=" ++ snd kv) shown) ++ ")" /\
      Forall2 (fun s k => fst k = fst s /\ read (snd s) = Some (snd k)) shown kw /\
      py_record_new [] kw = PyOk r.
  Proof.
    intros (Hm & Hs & He & Hmu & Hq & Hka & Hea & Hna & Hnb & Hvi & Hdi & Hth).
    destruct r as [m s e mu q ka ea na nb vi di th].
    cbn [r_m r_sigma r_epsilon_k r_mu r_q r_kappa_ab r_epsilon_k_ab r_na r_nb r_viscosity r_diffusion r_thermal] in *.
    assert (O : forall o, when (fun x => literal read (fmt_num f x) x) o -> exists w : option V,
      match option_map (fmt_num f) o, w with Some t, Some v => read t = Some v | None, None => True | _, _ => False end /\
      to_option to_f64 (match w with Some v => v | None => PyNone end) = PyOk o).
    { intros [x | ] H; [ | exists None; cbn; auto]. destruct H as (v & R & C). exists (Some v). cbn [option_map]. split; auto.
      destruct v; cbn in C |- *; try discriminate; congruence. }
    assert (O4 : forall o, when (fun a => literals read (fmt_dbg f (l4 a)) (l4 a)) o -> exists w : option V,
      match option_map (fun a => fmt_dbg f (l4 a)) o, w with Some t, Some v => read t = Some v | None, None => True | _, _ => False end /\
      to_option to_arr4 (match w with Some v => v | None => PyNone end) = PyOk o).
    { intros [x | ] H; [ | exists None; cbn; auto]. destruct H as (v & R & C). exists (Some (PySeq v)). cbn [option_map]. split; auto.
      cbn [to_option to_arr4]. pose proof (to_f64s_numbers v) as L. rewrite C in L. destruct L as [_ L]. destruct x as [[[a b] c] d].
      cbn [l4] in *. rewrite C, <- L. reflexivity. }
    assert (O5 : forall o, when (fun a => literals read (fmt_dbg f (l5 a)) (l5 a)) o -> exists w : option V,
      match option_map (fun a => fmt_dbg f (l5 a)) o, w with Some t, Some v => read t = Some v | None, None => True | _, _ => False end /\
      to_option to_arr5 (match w with Some v => v | None => PyNone end) = PyOk o).
    { intros [x | ] H; [ | exists None; cbn; auto]. destruct H as (v & R & C). exists (Some (PySeq v)). cbn [option_map]. split; auto.
      cbn [to_option to_arr5]. pose proof (to_f64s_numbers v) as L. rewrite C in L. destruct L as [_ L]. destruct x as [[[[a b] c] d] e'].
      cbn [l5] in *. rewrite C, <- L. reflexivity. }
    destruct Hm as (vm & Rm & Cm). destruct Hs as (vs & Rs & Cs). destruct He as (ve & Re & Ce).
    destruct (O _ Hmu) as (wmu & Rmu & Cmu). destruct (O _ Hq) as (wq & Rq & Cq). destruct (O _ Hka) as (wka & Rka & Cka).
    destruct (O _ Hea) as (wea & Rea & Cea). destruct (O _ Hna) as (wna & Rna & Cna). destruct (O _ Hnb) as (wnb & Rnb & Cnb).
    destruct (O4 _ Hvi) as (wvi & Rvi & Cvi). destruct (O5 _ Hdi) as (wdi & Rdi & Cdi). destruct (O4 _ Hth) as (wth & Rth & Cth).
    pose proof (record_new_named vm vs ve wmu wq wka wea wna wnb wvi wdi wth) as B. cbn zeta in B.
    set (r := mkRec m s e mu q ka ea na nb vi di th).
    exists (shown f r). eexists. split; [exact (C30_record_display f r) | ]. split.
    2:{ unfold py_record_new. rewrite B. rewrite Cm, Cs, Ce, Cmu, Cq, Cka, Cea, Cna, Cnb, Cvi, Cdi, Cth. reflexivity. }
    unfold shown, set_only. cbn [flat_map fst snd app r r_m r_sigma r_epsilon_k r_mu r_q r_kappa_ab r_epsilon_k_ab r_na r_nb r_viscosity r_diffusion r_thermal].
    do 3 (constructor; [cbn [fst snd]; auto | ]).
    repeat (apply Forall2_app; [match goal with R : match ?o with Some _ => _ | None => _ end |- Forall2 _ (match ?o with Some _ => _ | None => _ end) (match ?w with Some _ => _ | None => _ end) =>
      destruct o, w; try contradiction; repeat constructor; auto end | ]). constructor.
  Qed.
End Repr.

(* --------------------------------------------------------------------------- PcSaft, PcSaftFunctional *)

Section Models.
  Context {K : Num}.
  Notation V := (pyval K).

  (** The documented defaults: PcSaft(parameters) is the equation of state with default options,
      PcSaftFunctional(parameters) the White-Bear functional with default options. *)
  Theorem C50_eos_default (p : params K) : py_eos_new [PyParams p] [] = PyOk (eos_new p).
  Proof. reflexivity. Qed.
  Theorem C50_functional_default (p : params K) : py_functional_new [PyParams p] [] = PyOk (f_new p).
  Proof. reflexivity. Qed.

  (** which values the options take *)
  Definition options_given (eta iter tol dq : V) (o : options K) : Prop :=
    to_f64 eta = PyOk (o_max_eta o) /\ iter = PyInt (Z.of_nat (o_max_iter o)) /\ (Z.of_nat (o_max_iter o) < 2 ^ 64)%Z /\
    to_f64 tol = PyOk (o_tol o) /\ dq = PyStr (match o_dq o with DQ35 => "dq35" | DQ44 => "dq44" end).
  Lemma py_options_spec eta iter tol dq o : py_options eta iter tol dq = PyOk o <-> options_given eta iter tol dq o.
  Proof.
    unfold py_options, options_given. split.
    - destruct (to_f64 eta) as [x | | | | ]; cbn [pybind]; try discriminate.
      destruct iter; cbn [to_usize pybind]; try discriminate. destruct ((z <? 0)%Z || (2 ^ 64 <=? z)%Z) eqn:Z1; cbn [pybind]; try discriminate.
      apply orb_false_iff in Z1. destruct Z1 as [Z1 Z2]. apply Z.ltb_ge in Z1. apply Z.leb_gt in Z2.
      destruct (to_f64 tol) as [y | | | | ]; cbn [pybind]; try discriminate. destruct dq; cbn [to_str pybind]; try discriminate.
      unfold parse_dq. destruct (String.eqb s "dq35") eqn:E1; [ | destruct (String.eqb s "dq44") eqn:E2]; intros H; try discriminate H;
        injection H as <-; cbn [o_max_eta o_max_iter o_tol o_dq]; rewrite Z2Nat.id by auto;
        [apply String.eqb_eq in E1 | apply String.eqb_eq in E2]; subst; auto.
    - intros (-> & -> & Hz & -> & ->). cbn [pybind to_usize to_str].
      assert (E : (Z.of_nat (o_max_iter o) <? 0)%Z || (2 ^ 64 <=? Z.of_nat (o_max_iter o))%Z = false).
      { apply orb_false_iff. split; [apply Z.ltb_ge; lia | apply Z.leb_gt; auto]. }
      rewrite E. cbn [pybind]. rewrite Nat2Z.id. destruct o as [a b c []]; reflexivity.
  Qed.

  (** However the arguments are passed, the equation of state is the one with the options named. *)
  Theorem C50_eos pos kw e : py_eos_new pos kw = PyOk e <->
    exists p eta iter tol dq o, bind_args eos_signature pos kw = Some [PyParams p; eta; iter; tol; dq] /\
      options_given eta iter tol dq o /\ e = with_options p o.
  Proof.
    unfold py_eos_new. split.
    - destruct (bind_args eos_signature pos kw) as [[ | p [ | eta [ | iter [ | tol [ | dq [ | ]]]]]] | ] eqn:E; try discriminate.
      destruct p; cbn [to_params pybind]; try discriminate. destruct (py_options eta iter tol dq) as [o | | | | ] eqn:P; cbn [pybind]; try discriminate.
      intros H. injection H as <-. exists p, eta, iter, tol, dq, o. split; auto. split; auto. apply py_options_spec; auto.
    - intros (p & eta & iter & tol & dq & o & -> & G & ->). apply py_options_spec in G. cbn [to_params pybind]. rewrite G. reflexivity.
  Qed.
  Theorem C50_functional pos kw f : py_functional_new pos kw = PyOk f <->
    exists p v eta iter tol dq o, bind_args functional_signature pos kw = Some [PyParams p; PyFmt v; eta; iter; tol; dq] /\
      options_given eta iter tol dq o /\ f = f_with_options p v o.
  Proof.
    unfold py_functional_new. split.
    - destruct (bind_args functional_signature pos kw) as [[ | p [ | v [ | eta [ | iter [ | tol [ | dq [ | ]]]]]]] | ] eqn:E; try discriminate.
      destruct p; cbn [to_params pybind]; try discriminate. destruct v; cbn [to_fmt pybind]; try discriminate.
      destruct (py_options eta iter tol dq) as [o | | | | ] eqn:P; cbn [pybind]; try discriminate.
      intros H. injection H as <-. exists p, v, eta, iter, tol, dq, o. split; auto. split; auto. apply py_options_spec; auto.
    - intros (p & v & eta & iter & tol & dq & o & -> & G & ->). apply py_options_spec in G. cbn [to_params to_fmt pybind]. rewrite G. reflexivity.
  Qed.

  (** The same options, given by name and in any order, mean the same to both models. *)
  Theorem C50_same_options (p : params K) kw (e : eos K) : ~ In "fmt_version" (map fst kw) -> py_eos_new [PyParams p] kw = PyOk e ->
    exists f, py_functional_new [PyParams p] kw = PyOk f /\ f_options f = e_options e /\ f_params f = e_params e.
  Proof.
    intros Nf H. apply C50_eos in H. destruct H as (p' & eta & iter & tol & dq & o & B & G & ->).
    exists (f_with_options p WhiteBear o). split; [ | ].
    - apply C50_functional. exists p, WhiteBear, eta, iter, tol, dq, o. split; [ | split; auto].
      apply C50_call in B. apply C50_call. destruct B as (L & N & l & E & A & B). split; [reflexivity | ]. split; auto.
      exists [PyFmt WhiteBear; eta; iter; tol; dq]. split; [reflexivity | ]. split.
      + intros k v I. destruct (A k v I) as (i & Hi & Hk). cbn in Hi. exists (S i). split; [cbn; lia | ].
        destruct i as [ | i]; [lia | ]. cbn in Hk |- *. exact Hk.
      + intros i k d v Hi Hs Hv. cbn in Hi. destruct i as [ | [ | i]]; [lia | | ].
        * cbn in Hs, Hv. injection Hs as <- <-. injection Hv as <-. right. auto.
        * apply (B (S i) k d v); [cbn; lia | exact Hs | exact Hv].
    - apply C50_call in B. destruct B as (_ & _ & l & E & _). injection E as -> _. split; reflexivity.
  Qed.

  (** An unknown variant of the dipole-quadrupole term ends the call in a panic, for the functional
      too, which has no such option to choose; a float is no iteration limit, nor is a negative one. *)
  Theorem C50_bad_options p : (forall (s : string) kw, s <> "dq35" -> s <> "dq44" -> kw = [("dq_variant", PyStr s)] ->
      py_eos_new [PyParams p] kw = PyPanic /\ py_functional_new (K := K) [PyParams p] kw = PyPanic) /\
    (forall x kw, kw = [("max_iter_cross_assoc", PyFloat x)] ->
      py_eos_new [PyParams p] kw = PyTypeError /\ py_functional_new (K := K) [PyParams p] kw = PyTypeError) /\
    (forall z kw, (z < 0)%Z -> kw = [("max_iter_cross_assoc", PyInt z)] ->
      py_eos_new [PyParams p] kw = PyOverflowError /\ py_functional_new (K := K) [PyParams p] kw = PyOverflowError).
  Proof.
    split; [ | split].
    - intros s kw H1 H2 ->. apply String.eqb_neq in H1, H2.
      unfold py_eos_new, py_functional_new.
      match goal with |- context [bind_args eos_signature ?a ?b] => let t := eval cbn in (bind_args (K := K) eos_signature a b) in change (bind_args (K := K) eos_signature a b) with t end.
      match goal with |- context [bind_args functional_signature ?a ?b] => let t := eval cbn in (bind_args (K := K) functional_signature a b) in change (bind_args (K := K) functional_signature a b) with t end.
      cbn [pybind to_params to_fmt py_options to_f64 to_usize to_str]. unfold parse_dq. rewrite H1, H2. split; reflexivity.
    - intros x kw ->. split; reflexivity.
    - intros z kw Hz ->. apply Z.ltb_lt in Hz. unfold py_eos_new, py_functional_new.
      match goal with |- context [bind_args eos_signature ?a ?b] => let t := eval cbn in (bind_args (K := K) eos_signature a b) in change (bind_args (K := K) eos_signature a b) with t end.
      match goal with |- context [bind_args functional_signature ?a ?b] => let t := eval cbn in (bind_args (K := K) functional_signature a b) in change (bind_args (K := K) functional_signature a b) with t end.
      cbn [pybind to_params to_fmt py_options to_f64 to_usize]. rewrite Hz. split; reflexivity.
  Qed.

  (** The parameter objects show the records and the interaction matrix they hold. *)
  Theorem C50_parameters (prs : list (pure_record K)) (k : list (list (car K))) p : from_records prs k = Some p ->
    py_pure_records p = prs /\ py_k_ij p = k.
  Proof. unfold from_records. destruct (binary_ok _ _); intros H; [ | discriminate]. assert (E : from_records_raw prs k = p) by congruence. subst p. split; reflexivity. Qed.
End Models.

(* --------------------------------------------------------------------------- instances *)

Section Instances.
  Local Open Scope R_scope.
  Local Open Scope string_scope.
  Notation F x := (@PyFloat RNum x).
  Let dme : pcsaft_record RNum := @mkRec RNum 2.2634 3.2723 210.29 (Some 1.3) None None None None None (Some (-1, -2, -3, -4)) None None.
  (** PcSaftRecord(2.2634, 3.2723, mu=1.3, epsilon_k=210.29, viscosity=[-1, -2.0, -3, -4]) *)
  Let call_kw : list (string * pyval RNum) := [("mu", F 1.3); ("epsilon_k", F 210.29);
    ("viscosity", PySeq [PyInt (-1); F (-2); PyInt (-3); F (-4)])].
  Example C50_record_instance : py_record_new [F 2.2634; F 3.2723] call_kw = PyOk dme /\
    py_record_get dme "mu" = Some (F 1.3) /\ py_record_get dme "viscosity" = Some (PySeq [F (-1); F (-2); F (-3); F (-4)]) /\
    py_record_get dme "q" = Some PyNone.
  Proof.
    assert (L1 : @nlit RNum (inject_Z (-1)) = -1) by (cbn; unfold Rlit, Q2R; cbn; lra).
    assert (L3 : @nlit RNum (inject_Z (-3)) = -3) by (cbn; unfold Rlit, Q2R; cbn; lra).
    split; [ | repeat split].
    unfold py_record_new, call_kw.
    match goal with |- context [bind_args record_signature ?a ?b] =>
      assert (E : bind_args record_signature a b = Some [F 2.2634; F 3.2723; F 210.29; F 1.3; PyNone; PyNone; PyNone; PyNone; PyNone;
        PySeq [PyInt (-1); F (-2); PyInt (-3); F (-4)]; PyNone; PyNone]) by reflexivity end.
    rewrite E. cbn [to_f64 to_option to_arr4 to_f64s pybind List.length Nat.eqb]. rewrite L1, L3. reflexivity.
  Qed.
  (** sigma twice, an unknown keyword, epsilon_k missing, three coefficients for the viscosity *)
  Example C50_rejects : py_record_new [F 1; F 2; F 3] [("sigma", F 3)] = PyTypeError /\
    py_record_new [F 1; F 2; F 3] [("eps", F 3)] = PyTypeError /\ py_record_new [F 1; F 2] [("mu", F 3)] = PyTypeError /\
    py_record_new [F 1; F 2; F 3] [("viscosity", PySeq [F 1; F 2; F 3])] = PyValueError.
  Proof. repeat split. Qed.

  (** numbers and arrays as Python prints and reads them, for the numbers of one record *)
  Let write (x : R) : string :=
    if Req_EM_T x 2.2634 then "2.2634" else if Req_EM_T x 3.2723 then "3.2723" else if Req_EM_T x 210.29 then "210.29" else "1.3".
  Let fm : formatter RNum := @mkFmt RNum write (fun _ => "[-1.0, -2.0, -3.0, -4.0]") (fun _ => "") (fun _ => "") (fun _ => "").
  Let rd (s : string) : option (pyval RNum) :=
    lookup s [("2.2634", F 2.2634); ("3.2723", F 3.2723); ("210.29", F 210.29); ("1.3", F 1.3);
      ("[-1.0, -2.0, -3.0, -4.0]", PySeq [F (-1); F (-2); F (-3); F (-4)])].
  Example C50_repr_instance : legible fm rd dme /\
    py_record_repr fm dme = "PcSaftRecord(m=2.2634, sigma=3.2723, epsilon_k=210.29, mu=1.3, viscosity=[-1.0, -2.0, -3.0, -4.0])".
  Proof.
    assert (W1 : write 2.2634 = "2.2634") by (unfold write; destruct (Req_EM_T 2.2634 2.2634); [reflexivity | lra]).
    assert (W2 : write 3.2723 = "3.2723") by (unfold write; destruct (Req_EM_T 3.2723 2.2634); [lra | ]; destruct (Req_EM_T 3.2723 3.2723); [reflexivity | lra]).
    assert (W3 : write 210.29 = "210.29").
    { unfold write; destruct (Req_EM_T 210.29 2.2634); [lra | ]; destruct (Req_EM_T 210.29 3.2723); [lra | ]; destruct (Req_EM_T 210.29 210.29); [reflexivity | lra]. }
    assert (W4 : write 1.3 = "1.3").
    { unfold write; destruct (Req_EM_T 1.3 2.2634); [lra | ]; destruct (Req_EM_T 1.3 3.2723); [lra | ]; destruct (Req_EM_T 1.3 210.29); [lra | reflexivity]. }
    split.
    - unfold legible, when, dme, literal, literals. cbn [r_m r_sigma r_epsilon_k r_mu r_q r_kappa_ab r_epsilon_k_ab r_na r_nb r_viscosity r_diffusion r_thermal fm fmt_num fmt_dbg l4].
      rewrite W1, W2, W3, W4.
      repeat split; (eexists; split; [reflexivity | reflexivity]).
    - unfold py_record_repr, display_record, dme. cbn [r_m r_sigma r_epsilon_k r_mu r_q r_kappa_ab r_epsilon_k_ab r_na r_nb r_viscosity r_diffusion r_thermal fm fmt_num fmt_dbg l4 disp_opt].
      rewrite W1, W2, W3, W4. reflexivity.
  Qed.
  Example C50_options_instance (p : params RNum) : exists e,
    py_eos_new [PyParams p] [("dq_variant", PyStr "dq44"); ("max_iter_cross_assoc", PyInt 80)] = PyOk e /\
    o_dq (e_options e) = DQ44 /\ o_max_iter (e_options e) = 80%nat /\ o_max_eta (e_options e) = @nlit RNum 0.5%Q.
  Proof. eexists. split; [reflexivity | ]. split; [reflexivity | split; reflexivity]. Qed.
End Instances.

Print Assumptions C50_call.
Print Assumptions C50_keyword_order.
Print Assumptions C50_positional_or_keyword.
Print Assumptions C50_default.
Print Assumptions C50_unknown_keyword.
Print Assumptions C50_missing.
Print Assumptions C50_given_twice.
Print Assumptions C50_too_many.
Print Assumptions C50_record.
Print Assumptions C50_record_values.
Print Assumptions C50_record_copy.
Print Assumptions C50_repr.
Print Assumptions C50_eos_default.
Print Assumptions C50_functional_default.
Print Assumptions C50_eos.
Print Assumptions C50_functional.
Print Assumptions C50_same_options.
Print Assumptions C50_bad_options.
Print Assumptions C50_parameters.
