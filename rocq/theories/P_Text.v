(** C29, C30: JSON form and text representations of records and parameter sets. *)
From Coq Require Import ZArith QArith Reals Lra Lia String Ascii List Bool Permutation.
From Verif Require Import Num RNum RSum M_Params F_Params M_Eos M_Text P_Params Samples.
Import ListNotations.
Local Open Scope string_scope.

(* =================================================================== C29: JSON round trip *)

(** the keys a record is allowed to have *)
Definition mandatory_keys : list string := ["m"; "sigma"; "epsilon_k"].
Definition optional_keys : list string :=
  ["mu"; "q"; "kappa_ab"; "epsilon_k_ab"; "na"; "nb"; "viscosity"; "diffusion"; "thermal_conductivity"].

Section Json.
  Context {K : Num}.
  Notation T := (car K).
  Implicit Types (r : pcsaft_record K) (l : list (string * json K)).

  (** the value stored under a mandatory key, and whether an optional key is set *)
  Definition num_of r (key : string) : option T :=
    if String.eqb key "m" then Some (r_m r)
    else if String.eqb key "sigma" then Some (r_sigma r)
    else if String.eqb key "epsilon_k" then Some (r_epsilon_k r)
    else if String.eqb key "mu" then r_mu r
    else if String.eqb key "q" then r_q r
    else if String.eqb key "kappa_ab" then r_kappa_ab r
    else if String.eqb key "epsilon_k_ab" then r_epsilon_k_ab r
    else if String.eqb key "na" then r_na r
    else if String.eqb key "nb" then r_nb r
    else None.
  Definition arr_of r (key : string) : option (list T) :=
    if String.eqb key "viscosity" then option_map l4 (r_viscosity r)
    else if String.eqb key "diffusion" then option_map l5 (r_diffusion r)
    else if String.eqb key "thermal_conductivity" then option_map l4 (r_thermal r)
    else None.
  (** what a reader of the file expects under [key] *)
  Definition entry r (key : string) : option (json K) :=
    match num_of r key with
    | Some x => Some (JNum x)
    | None => match arr_of r key with Some a => Some (JArr (map JNum a)) | None => None end
    end.

  Definition occurs (key : string) l : nat := List.length (filter (fun kv => String.eqb key (fst kv)) l).

  Lemma find_app key l l' : find_key key (l ++ l') = (find_key key l ++ find_key key l')%list.
  Proof. unfold find_key. rewrite filter_app, map_app. reflexivity. Qed.
  Lemma find_cons key k j l :
    find_key key ((k, j) :: l) = if String.eqb key k then j :: find_key key l else find_key key l.
  Proof. unfold find_key. cbn [filter fst]. destruct (String.eqb key k); reflexivity. Qed.
  Lemma find_ser {A} key k (f : A -> json K) o :
    find_key key (ser_opt k f o) =
      if String.eqb key k then match o with Some a => [f a] | None => [] end else [].
  Proof. destruct o; cbn [ser_opt]; [rewrite find_cons | ]; destruct (String.eqb key k); reflexivity. Qed.
  Lemma find_perm key l l' : Permutation l l' -> Permutation (find_key key l) (find_key key l').
  Proof.
    intros H. unfold find_key. apply Permutation_map. induction H; cbn [filter].
    - constructor.
    - destruct (String.eqb key (fst x)); auto.
    - destruct (String.eqb key (fst x)), (String.eqb key (fst y)); auto using Permutation_refl, perm_swap.
    - eapply perm_trans; eauto.
  Qed.
  Lemma find_length key l : List.length (find_key key l) = occurs key l.
  Proof. unfold find_key, occurs. apply map_length. Qed.

  Definition fields r : list (string * json K) :=
    match serialize r with JObj l => l | _ => [] end.
  Lemma serialize_fields r : serialize r = JObj (fields r).
  Proof. reflexivity. Qed.

  Ltac look := unfold fields, serialize; cbv beta iota;
    rewrite ?find_app, ?find_ser, ?find_cons, ?(eq_refl : find_key _ (@nil (string * json K)) = []);
    cbn [String.eqb Ascii.eqb Bool.eqb app find_key filter map]; rewrite ?app_nil_r.

  Lemma de_num_ser x : de_num (@JNum K x) = Some x. Proof. reflexivity. Qed.
  Lemma de_arr4_ser (a : arr4 K) : de_arr4 (ser_list (l4 a)) = Some a.
  Proof. destruct a as [[[a b] c] d]. reflexivity. Qed.
  Lemma de_arr5_ser (a : arr5 K) : de_arr5 (ser_list (l5 a)) = Some a.
  Proof. destruct a as [[[[a b] c] d] e]. reflexivity. Qed.

  Lemma opt_ser {A} (f : A -> json K) de (o : option A) key l :
    (forall a, de (f a) = Some a) -> (forall a, f a <> JNull) ->
    find_key key l = match o with Some a => [f a] | None => [] end ->
    opt_field key de l = Some o.
  Proof.
    intros H N E. unfold opt_field. rewrite E. destruct o as [a | ]; auto.
    specialize (N a). specialize (H a). destruct (f a); try (rewrite H; reflexivity). elim N; auto.
  Qed.

  (** Writing a record and reading it back returns the record, for every pattern of options. *)
  Theorem C29_round_trip r : deserialize (serialize r) = Some r.
  Proof.
    rewrite serialize_fields. unfold deserialize.
    assert (H1 : req_field "m" (fields r) = Some (r_m r)) by (unfold req_field; look; reflexivity).
    assert (H2 : req_field "sigma" (fields r) = Some (r_sigma r)) by (unfold req_field; look; reflexivity).
    assert (H3 : req_field "epsilon_k" (fields r) = Some (r_epsilon_k r)) by (unfold req_field; look; reflexivity).
    assert (H4 : opt_field "mu" de_num (fields r) = Some (r_mu r))
      by (apply (opt_ser JNum); [reflexivity | discriminate | look; reflexivity]).
    assert (H5 : opt_field "q" de_num (fields r) = Some (r_q r))
      by (apply (opt_ser JNum); [reflexivity | discriminate | look; reflexivity]).
    assert (H6 : opt_field "kappa_ab" de_num (fields r) = Some (r_kappa_ab r))
      by (apply (opt_ser JNum); [reflexivity | discriminate | look; reflexivity]).
    assert (H7 : opt_field "epsilon_k_ab" de_num (fields r) = Some (r_epsilon_k_ab r))
      by (apply (opt_ser JNum); [reflexivity | discriminate | look; reflexivity]).
    assert (H8 : opt_field "na" de_num (fields r) = Some (r_na r))
      by (apply (opt_ser JNum); [reflexivity | discriminate | look; reflexivity]).
    assert (H9 : opt_field "nb" de_num (fields r) = Some (r_nb r))
      by (apply (opt_ser JNum); [reflexivity | discriminate | look; reflexivity]).
    assert (H10 : opt_field "viscosity" de_arr4 (fields r) = Some (r_viscosity r))
      by (apply (opt_ser (fun a => ser_list (l4 a))); [apply de_arr4_ser | discriminate | look; reflexivity]).
    assert (H11 : opt_field "diffusion" de_arr5 (fields r) = Some (r_diffusion r))
      by (apply (opt_ser (fun a => ser_list (l5 a))); [apply de_arr5_ser | discriminate | look; reflexivity]).
    assert (H12 : opt_field "thermal_conductivity" de_arr4 (fields r) = Some (r_thermal r))
      by (apply (opt_ser (fun a => ser_list (l4 a))); [apply de_arr4_ser | discriminate | look; reflexivity]).
    rewrite H1, H2, H3, H4, H5, H6, H7, H8, H9, H10, H11, H12. cbn [bind]. destruct r; reflexivity.
  Qed.

  (** Different records have different JSON forms. *)
  Theorem C29_injective r r' : serialize r = serialize r' -> r = r'.
  Proof.
    intros H. pose proof (C29_round_trip r) as A. rewrite H, C29_round_trip in A. congruence.
  Qed.

  Lemma find_in key l j : In (key, j) l <-> In j (find_key key l).
  Proof.
    unfold find_key. rewrite in_map_iff. split.
    - intros H. exists (key, j). split; auto. apply filter_In. split; auto. apply String.eqb_refl.
    - intros ([k i] & <- & H). apply filter_In in H. destruct H as [H E]. apply String.eqb_eq in E.
      cbn in E. subst. auto.
  Qed.

  (** What is written: exactly one entry for each field that has a value, nothing else; in
      particular an absent option leaves no trace. *)
  Theorem C29_written r :
    exists l, serialize r = JObj l /\
      NoDup (map fst l) /\
      (forall key j, In (key, j) l <-> entry r key = Some j) /\
      (forall key, In key (map fst l) -> In key (mandatory_keys ++ optional_keys)).
  Proof.
    exists (fields r). split; [reflexivity | ].
    assert (F : forall key, find_key key (fields r) = match entry r key with Some j => [j] | None => [] end).
    { intros key. unfold entry, num_of, arr_of.
      unfold fields, serialize. cbv beta iota. rewrite ?find_app, ?find_ser, ?find_cons.
      cbn [find_key filter map].
      repeat match goal with |- context [String.eqb key ?k] =>
        let E := fresh in destruct (String.eqb key k) eqn:E;
        [apply String.eqb_eq in E; subst key; cbn [String.eqb Ascii.eqb Bool.eqb app];
         first [reflexivity | unfold option_map; match goal with
           |- context [match ?o with Some _ => _ | None => _ end] => match o with context [match _ with _ => _ end] => fail 1 | _ => idtac end; destruct o; reflexivity end] | ]
      end. reflexivity. }
    assert (N : forall key, (List.length (find_key key (fields r)) <= 1)%nat).
    { intros key. rewrite F. destruct (entry r key); cbn; lia. }
    split; [ | split].
    - clear F. induction (fields r) as [ | [k j] l IH]; cbn [map]; constructor.
      + intros H. apply in_map_iff in H. destruct H as ([k' i] & E & H). cbn in E. subst k'.
        specialize (N k). rewrite find_cons, String.eqb_refl in N. cbn in N.
        apply find_in in H. destruct (find_key k l); cbn in *; [tauto | lia].
      + apply IH. intros key. specialize (N key). rewrite find_cons in N.
        destruct (String.eqb key k); cbn in N; lia.
    - intros key j. rewrite find_in, F. destruct (entry r key) as [i | ]; cbn; split.
      + intros [-> | []]. reflexivity.
      + intros H. left. congruence.
      + tauto.
      + discriminate.
    - intros key H. apply in_map_iff in H. destruct H as ([k j] & E & H). cbn in E. subst k.
      apply find_in in H. rewrite F in H. unfold entry, num_of, arr_of in H.
      unfold mandatory_keys, optional_keys. cbn [app].
      repeat match type of H with context [String.eqb key ?k] =>
        let E := fresh in destruct (String.eqb key k) eqn:E;
        [apply String.eqb_eq in E; subst key; cbn; tauto | ] end.
      cbn in H. tauto.
  Qed.

  Ltac bnd H := repeat match type of H with
    | bind ?o _ = Some _ => let E := fresh "E" in destruct o eqn:E; cbn [bind] in H; [ | discriminate H]
    end.

  Lemma req_inv key l x : req_field key l = Some x -> find_key key l = [JNum x].
  Proof.
    unfold req_field. destruct (find_key key l) as [ | j [ | ]]; try discriminate.
    destruct j; try discriminate. cbn. intros H. injection H as ->. auto.
  Qed.
  Lemma opt_inv {A} key (de : json K -> option A) l o : opt_field key de l = Some o ->
    match o with
    | None => find_key key l = [] \/ find_key key l = [JNull]
    | Some a => exists j, j <> JNull /\ find_key key l = [j] /\ de j = Some a
    end.
  Proof.
    unfold opt_field. destruct (find_key key l) as [ | j [ | ]].
    - intros H. injection H as <-. auto.
    - destruct j; try (destruct (de _) as [a | ] eqn:E; [ | discriminate];
        intros H; injection H as <-; eexists; repeat split; eauto; discriminate).
      intros H. injection H as <-. auto.
    - destruct j; discriminate.
  Qed.

  (** Reading: every mandatory key is present exactly once and holds the number that is read;
      so a file without one of them (or with a value of another type) is rejected. *)
  Theorem C29_mandatory l r : deserialize (JObj l) = Some r ->
    forall key, In key mandatory_keys ->
      exists x, num_of r key = Some x /\ occurs key l = 1%nat /\ In (key, JNum x) l.
  Proof.
    intros H key I. unfold deserialize in H. bnd H. injection H as <-.
    assert (G : forall k x, req_field k l = Some x -> occurs k l = 1%nat /\ In (k, JNum x) l).
    { intros k x Hx. apply req_inv in Hx. rewrite <- find_length, find_in, Hx. cbn. auto. }
    cbn in I. destruct I as [<- | [<- | [<- | []]]]; eexists; (split; [reflexivity | apply G; auto]).
  Qed.

  Corollary C29_missing_mandatory l key :
    In key mandatory_keys -> ~ In key (map fst l) -> deserialize (JObj l) = None.
  Proof.
    intros I N. destruct (deserialize (JObj l)) eqn:E; auto.
    destruct (C29_mandatory _ _ E _ I) as (x & _ & _ & H). elim N. apply (in_map fst) in H. auto.
  Qed.

  (** An optional key that is not there (or null) is read as None; one that is there exactly
      once with a value of the right type is read as that value. *)
  Theorem C29_optional l r : deserialize (JObj l) = Some r ->
    forall key, In key optional_keys ->
      (entry r key = None <-> (occurs key l = 0%nat \/ (occurs key l = 1%nat /\ In (key, JNull) l))) /\
      (forall j, entry r key = Some j -> occurs key l = 1%nat /\ In (key, j) l).
  Proof.
    intros H key I. unfold deserialize in H. bnd H. injection H as <-.
    assert (G : forall k (o : option (json K)),
      match o with None => find_key k l = [] \/ find_key k l = [JNull]
                 | Some j => j <> JNull /\ find_key k l = [j] end ->
      (o = None <-> (occurs k l = 0%nat \/ (occurs k l = 1%nat /\ In (k, JNull) l))) /\
      (forall j, o = Some j -> occurs k l = 1%nat /\ In (k, j) l)).
    { intros k oo Q. rewrite <- find_length, find_in. destruct oo as [j | ].
      - destruct Q as [N Q]. rewrite Q. split.
        + split; [discriminate | ]. cbn. intros [C | [_ [C | []]]]; [discriminate | congruence].
        + intros i Hi. injection Hi as <-. rewrite find_in, Q. cbn. auto.
      - split; [ | discriminate]. split; auto. intros _. destruct Q as [-> | ->]; cbn; auto. }
    assert (Num : forall k o, opt_field k de_num l = Some o ->
      match option_map (@JNum K) o with None => find_key k l = [] \/ find_key k l = [JNull]
                 | Some j => j <> JNull /\ find_key k l = [j] end).
    { intros k oo Q. apply opt_inv in Q. destruct oo as [a | ]; cbn [option_map]; auto.
      destruct Q as (j & N & F & D). destruct j; try discriminate. cbn in D. injection D as ->.
      split; auto; discriminate. }
    assert (Coll : forall js v, collect_opt (map de_num js) = Some v -> js = map (@JNum K) v).
    { induction js as [ | j js IH]; cbn; intros v Hv; [injection Hv as <-; reflexivity | ].
      destruct j; cbn in Hv; try discriminate. destruct (collect_opt (map de_num js)) eqn:C; [ | discriminate].
      injection Hv as <-. cbn. f_equal. auto. }
    assert (A4 : forall k o, opt_field k de_arr4 l = Some o ->
      match option_map (fun a => JArr (map (@JNum K) (l4 a))) o with
                 | None => find_key k l = [] \/ find_key k l = [JNull]
                 | Some j => j <> JNull /\ find_key k l = [j] end).
    { intros k oo Q. apply opt_inv in Q. destruct oo as [a | ]; cbn [option_map]; auto.
      destruct Q as (j & N & F & D). split; [discriminate | ]. rewrite F. f_equal.
      unfold de_arr4, de_arr in D. destruct j as [ | | | | js | ]; try discriminate.
      destruct (collect_opt (map de_num js)) as [v | ] eqn:C; [ | discriminate].
      apply Coll in C. subst js.
      destruct v as [ | a1 [ | a2 [ | a3 [ | a4 [ | ]]]]]; cbn in D; try discriminate.
      injection D as <-. reflexivity. }
    assert (A5 : forall k o, opt_field k de_arr5 l = Some o ->
      match option_map (fun a => JArr (map (@JNum K) (l5 a))) o with
                 | None => find_key k l = [] \/ find_key k l = [JNull]
                 | Some j => j <> JNull /\ find_key k l = [j] end).
    { intros k oo Q. apply opt_inv in Q. destruct oo as [a | ]; cbn [option_map]; auto.
      destruct Q as (j & N & F & D). split; [discriminate | ]. rewrite F. f_equal.
      unfold de_arr5, de_arr in D. destruct j as [ | | | | js | ]; try discriminate.
      destruct (collect_opt (map de_num js)) as [v | ] eqn:C; [ | discriminate].
      apply Coll in C. subst js.
      destruct v as [ | a1 [ | a2 [ | a3 [ | a4 [ | a5 [ | ]]]]]]; cbn in D; try discriminate.
      injection D as <-. reflexivity. }
    assert (S1 : forall r k, In k ["mu"; "q"; "kappa_ab"; "epsilon_k_ab"; "na"; "nb"] ->
      entry r k = option_map (@JNum K) (num_of r k)).
    { intros rr k Hk. unfold entry. cbn in Hk.
      destruct Hk as [<- | [<- | [<- | [<- | [<- | [<- | []]]]]]]; cbn;
      match goal with |- context [match ?o with _ => _ end] => destruct o; reflexivity end. }
    cbn in I.
    destruct I as [<- | [<- | [<- | [<- | [<- | [<- | [<- | [<- | [<- | []]]]]]]]]]; apply G.
    1-6: (rewrite S1 by (cbn; tauto); cbn [num_of String.eqb Ascii.eqb Bool.eqb r_mu r_q r_kappa_ab r_epsilon_k_ab r_na r_nb]; apply Num; assumption).
    - apply A4 in E8. unfold entry, num_of, arr_of. cbn [String.eqb Ascii.eqb Bool.eqb r_viscosity].
      destruct o5; exact E8.
    - apply A5 in E9. unfold entry, num_of, arr_of. cbn [String.eqb Ascii.eqb Bool.eqb r_diffusion].
      destruct o6; exact E9.
    - apply A4 in E10. unfold entry, num_of, arr_of. cbn [String.eqb Ascii.eqb Bool.eqb r_thermal].
      destruct o7; exact E10.
  Qed.

  Lemma req_ext key l l' : Permutation (find_key key l) (find_key key l') -> req_field key l = req_field key l'.
  Proof.
    unfold req_field. intros P. pose proof (Permutation_length P) as L.
    destruct (find_key key l) as [ | j [ | j2 jl]], (find_key key l') as [ | i [ | i2 il]]; cbn in L; try lia; auto.
    apply Permutation_length_1 in P. congruence.
  Qed.
  Lemma opt_ext {A} key (de : json K -> option A) l l' :
    Permutation (find_key key l) (find_key key l') -> opt_field key de l = opt_field key de l'.
  Proof.
    unfold opt_field. intros P. pose proof (Permutation_length P) as L.
    destruct (find_key key l) as [ | j [ | j2 jl]], (find_key key l') as [ | i [ | i2 il]]; cbn in L; try lia; auto.
    - apply Permutation_length_1 in P. subst. reflexivity.
    - destruct j, i; reflexivity.
  Qed.
  Lemma deserialize_ext l l' :
    (forall key, In key (mandatory_keys ++ optional_keys) -> Permutation (find_key key l) (find_key key l')) ->
    deserialize (JObj l) = deserialize (JObj l').
  Proof.
    intros H. unfold deserialize.
    rewrite (req_ext "m" l l'), (req_ext "sigma" l l'), (req_ext "epsilon_k" l l'),
      (opt_ext "mu" de_num l l'), (opt_ext "q" de_num l l'), (opt_ext "kappa_ab" de_num l l'),
      (opt_ext "epsilon_k_ab" de_num l l'), (opt_ext "na" de_num l l'), (opt_ext "nb" de_num l l'),
      (opt_ext "viscosity" de_arr4 l l'), (opt_ext "diffusion" de_arr5 l l'),
      (opt_ext "thermal_conductivity" de_arr4 l l') by (apply H; cbn; tauto).
    reflexivity.
  Qed.

  (** The order of the keys does not matter. *)
  Theorem C29_key_order l l' : Permutation l l' -> deserialize (JObj l) = deserialize (JObj l').
  Proof. intros P. apply deserialize_ext. intros key _. apply find_perm. auto. Qed.

  (** Keys that are not fields of the record are ignored, wherever they stand. *)
  Theorem C29_unknown_keys l1 key j l2 : ~ In key (mandatory_keys ++ optional_keys) ->
    deserialize (JObj (l1 ++ (key, j) :: l2)) = deserialize (JObj (l1 ++ l2)).
  Proof.
    intros N. apply deserialize_ext. intros k Hk. rewrite !find_app, find_cons.
    destruct (String.eqb k key) eqn:E; auto. apply String.eqb_eq in E. subst. tauto.
  Qed.

  (** A field given twice is an error. *)
  Theorem C29_duplicates_rejected l key : In key (mandatory_keys ++ optional_keys) ->
    (1 < occurs key l)%nat -> deserialize (JObj l) = None.
  Proof.
    intros I H. destruct (deserialize (JObj l)) as [r | ] eqn:E; auto. exfalso. apply in_app_iff in I.
    destruct I as [I | I].
    - destruct (C29_mandatory _ _ E _ I) as (x & _ & O & _). lia.
    - destruct (C29_optional _ _ E _ I) as (A & B). destruct (entry r key).
      + destruct (B j eq_refl). lia.
      + destruct (proj1 A eq_refl) as [O | [O _]]; lia.
  Qed.

  (** The binary record: one mandatory number, same rules. *)
  Theorem C29_binary (k : car K) l :
    deserialize_binary (serialize_binary k) = Some k /\
    (deserialize_binary (JObj l) = Some k <-> (occurs "k_ij" l = 1%nat /\ In ("k_ij", JNum k) l)).
  Proof.
    split; [reflexivity | ]. cbn [deserialize_binary]. rewrite <- find_length, find_in. split.
    - intros H. apply req_inv in H. rewrite H. cbn. auto.
    - unfold req_field. destruct (find_key "k_ij" l) as [ | j [ | ]]; cbn; intros [L I]; try lia.
      destruct I as [-> | []]. reflexivity.
  Qed.
End Json.

(* ========================================================== C30: readable representations *)

(** cutting a text at every occurrence of a character *)
Fixpoint split (c : ascii) (s : string) : list string :=
  match s with
  | "" => [""]
  | String a s => if Ascii.eqb a c then "" :: split c s
                  else match split c s with h :: t => String a h :: t | [] => [String a ""] end
  end.
(** the character does not occur in the text *)
Fixpoint free (c : ascii) (s : string) : Prop :=
  match s with "" => True | String a s => a <> c /\ free c s end.

Definition newline : ascii := Ascii.ascii_of_nat 10.
Definition bar : ascii := "|"%char.

Lemma split_nonempty c s : split c s <> [].
Proof.
  destruct s; cbn; [discriminate | ]. destruct (Ascii.eqb a c); [discriminate | ].
  destruct (split c s); discriminate.
Qed.
Lemma free_app c a b : free c (a ++ b) <-> free c a /\ free c b.
Proof. induction a; cbn; tauto. Qed.
Lemma split_free c s : free c s -> split c s = [s].
Proof.
  induction s; cbn; auto. intros [N F]. destruct (Ascii.eqb_spec a c); [tauto | ]. rewrite (IHs F). auto.
Qed.
Lemma split_app c a b : split c (a ++ String c b) = (split c a ++ split c b)%list.
Proof.
  induction a; cbn [append split].
  - rewrite Ascii.eqb_refl. reflexivity.
  - rewrite IHa. destruct (Ascii.eqb a c); [reflexivity | ].
    destruct (split c a0) eqn:E; [elim (split_nonempty c a0 E) | reflexivity].
Qed.
Lemma split_cut c a b : free c a -> split c (a ++ String c b) = a :: split c b.
Proof. intros F. rewrite split_app, split_free; auto. Qed.
Lemma split_head c b : split c (String c b) = "" :: split c b.
Proof. cbn. rewrite Ascii.eqb_refl. reflexivity. Qed.

Lemma sapp_assoc (a b c : string) : (a ++ b) ++ c = a ++ (b ++ c).
Proof. induction a; cbn; congruence. Qed.
Lemma sapp_nil (a : string) : a ++ "" = a.
Proof. induction a; cbn; congruence. Qed.
Lemma append_cons a s t : String a s ++ t = String a (s ++ t). Proof. reflexivity. Qed.

(** concatenation with a separator between the pieces *)
Fixpoint joined (sep : string) (l : list string) : string :=
  match l with [] => "" | [s] => s | s :: l => s ++ sep ++ joined sep l end.

Section Readable.
  Context {K : Num}.
  Notation T := (car K).
  Implicit Types (f : formatter K) (r : pcsaft_record K).

  (** the labelled values of a record in the documented order, absent ones left out *)
  Definition shown f r : list (string * string) :=
    [("m", fmt_num f (r_m r)); ("sigma", fmt_num f (r_sigma r)); ("epsilon_k", fmt_num f (r_epsilon_k r))]
    ++ flat_map (fun kv => match snd kv with Some v => [(fst kv, v)] | None => [] end)
      [("mu", option_map (fmt_num f) (r_mu r)); ("q", option_map (fmt_num f) (r_q r));
       ("kappa_ab", option_map (fmt_num f) (r_kappa_ab r));
       ("epsilon_k_ab", option_map (fmt_num f) (r_epsilon_k_ab r));
       ("na", option_map (fmt_num f) (r_na r)); ("nb", option_map (fmt_num f) (r_nb r));
       ("viscosity", option_map (fun a => fmt_dbg f (l4 a)) (r_viscosity r));
       ("diffusion", option_map (fun a => fmt_dbg f (l5 a)) (r_diffusion r));
       ("thermal_conductivity", option_map (fun a => fmt_dbg f (l4 a)) (r_thermal r))].

  Lemma joined_cons sep s l : l <> [] -> joined sep (s :: l) = s ++ sep ++ joined sep l.
  Proof. destruct l; [tauto | reflexivity]. Qed.
  Lemma joined_tail sep s l : joined sep (s :: l) = s ++ fold_right (fun x acc => sep ++ x ++ acc) "" l.
  Proof.
    revert s. induction l as [ | x l IH]; intros s; [cbn; rewrite sapp_nil; auto | ].
    rewrite joined_cons by discriminate. rewrite IH. reflexivity.
  Qed.

  Definition assign (kv : string * string) : string := fst kv ++ "=" ++ snd kv.

  Theorem C30_record_display f r :
    display_record f r = "PcSaftRecord(" ++ joined ", " (map assign (shown f r)) ++ ")".
  Proof.
    unfold shown, display_record. cbn [app map]. rewrite joined_tail. cbn [assign fst snd fold_right].
    assert (G : forall l z, fold_right (fun x acc => ", " ++ x ++ acc) "" (map assign
        (flat_map (fun kv : string * option string => match snd kv with Some v => [(fst kv, v)] | None => [] end) l)) ++ z
      = fold_right (fun kv acc => match snd kv with Some v => ", " ++ fst kv ++ "=" ++ v | None => "" end ++ acc) z l).
    { induction l as [ | [k [v | ]] l IH]; intros z; cbn [flat_map snd fst app map fold_right]; auto.
      - rewrite !sapp_assoc, IH. unfold assign. cbn [fst snd]. rewrite !sapp_assoc. reflexivity.
      - apply IH. }
    rewrite !sapp_assoc, G. cbn [fold_right snd fst].
    unfold assign; cbn [fst snd].
    assert (D : forall A k (g : A -> string) o,
      match option_map g o with Some v => ", " ++ k ++ "=" ++ v | None => "" end = disp_opt k g o)
      by (intros A k g []; reflexivity).
    rewrite !D. rewrite !sapp_assoc. reflexivity.
  Qed.

  (* ------------------------------------------------ an option is mentioned iff it is set *)

  (** the text contains [, key=] *)
  Definition mentions (key s : string) : Prop := exists a b, s = a ++ ", " ++ key ++ "=" ++ b.

  Lemma uncut c u w a b : free c u -> u ++ String c w = a ++ String c b ->
    (u = a /\ w = b) \/ exists a', a = u ++ String c a' /\ w = a' ++ String c b.
  Proof.
    revert a. induction u as [ | x u IH]; intros a F E.
    - destruct a as [ | y a]; cbn in E.
      + injection E as E2. left; auto.
      + injection E as E1 E2. right. exists a. subst; auto.
    - destruct F as [N F]. destruct a as [ | y a]; cbn in E; injection E as E1 E2.
      + elim N; auto.
      + subst y. destruct (IH a F E2) as [[-> ->] | (a' & -> & ->)]; [left; auto | right].
        exists a'. auto.
  Qed.
  Lemma last_sep c x k y k' : free c k -> free c k' -> x ++ String c k = y ++ String c k' -> k = k'.
  Proof.
    intros F F' E. apply (f_equal (split c)) in E. rewrite !split_app, (split_free c k), (split_free c k') in E; auto.
    apply app_inj_tail in E. tauto.
  Qed.
  Lemma not_free c a b : ~ free c (a ++ String c b).
  Proof. rewrite free_app. cbn. tauto. Qed.

  Lemma suffix_of c u x y z : free c z -> x ++ z = u ++ String c y -> exists y', y = y' ++ z.
  Proof.
    revert x. induction u as [ | d u IHu]; intros x Fz H.
    - destruct x as [ | d x]; cbn in H.
      + subst z. cbn in Fz. tauto.
      + injection H as _ H. exists x. auto.
    - destruct x as [ | d' x]; cbn in H.
      + subst z. destruct (not_free c (String d u) y Fz).
      + injection H as _ H. eapply IHu; eauto.
  Qed.

  Definition eqc : ascii := "="%char.
  Definition key_ok (k : string) : Prop := free " " k /\ free eqc k.
  Definition tail_of (l : list (string * string)) : string :=
    fold_right (fun kv acc => ", " ++ fst kv ++ "=" ++ snd kv ++ acc) ")" l.

  Lemma mention_tail key : key_ok key -> forall l v, free eqc v ->
    Forall (fun kv => key_ok (fst kv) /\ free eqc (snd kv)) l ->
    mentions key (v ++ tail_of l) -> In key (map fst l).
  Proof.
    intros [Ks Ke]. induction l as [ | [k w] l IH]; intros v Fv Fl (a & b & E).
    - exfalso. cbn [tail_of fold_right] in E.
      assert (F : free eqc (v ++ ")")) by (apply free_app; split; auto; cbn; repeat split; discriminate).
      rewrite E in F. change (", " ++ key ++ "=" ++ b) with (", " ++ key ++ String eqc b) in F.
      rewrite <- !sapp_assoc in F. apply not_free in F. auto.
    - inversion Fl as [ | ? ? [[Hs He] Hw] Fl']; subst. cbn [fst snd] in *.
      cbn [tail_of fold_right fst snd] in E. fold (tail_of l) in E.
      change ("=" ++ w ++ tail_of l) with (String eqc (w ++ tail_of l)) in E.
      change ("=" ++ b) with (String eqc b) in E. rewrite <- !sapp_assoc in E.
      apply uncut in E; [ | apply free_app; split; [apply free_app; split; auto; cbn; repeat split; discriminate | auto]].
      destruct E as [[E _] | (a' & E & E')].
      + left. cbn [map fst]. symmetry. rewrite !sapp_assoc in E.
        change (", " ++ k) with ("," ++ String " " k) in E. change (", " ++ key) with ("," ++ String " " key) in E.
        rewrite <- !sapp_assoc in E. symmetry in E. eapply last_sep; [ | | exact E]; auto.
      + cbn [map]. right.
        apply (IH w Hw Fl').
        assert (Q : exists a'', a' = a'' ++ ", " ++ key).
        { rewrite sapp_assoc in E. eapply suffix_of in E; [destruct E as (y' & ->); eauto | ].
          apply free_app. split; auto. cbn; repeat split; discriminate. }
        destruct Q as (a'' & ->). exists a'', b. rewrite E', !sapp_assoc. reflexivity.
  Qed.

  Lemma tail_mention key l : In key (map fst l) -> mentions key (tail_of l).
  Proof.
    induction l as [ | [k v] l IH]; cbn [map fst]; [intros [] | intros [-> | H]].
    - exists "", (v ++ tail_of l). reflexivity.
    - destruct (IH H) as (a & b & E). exists (", " ++ k ++ "=" ++ v ++ a), b.
      cbn [tail_of fold_right fst snd]. fold (tail_of l). rewrite E, !sapp_assoc. reflexivity.
  Qed.

  (** numbers are printed without an equals sign *)
  Definition no_equals f : Prop :=
    (forall x, free eqc (fmt_num f x)) /\ (forall l, free eqc (fmt_dbg f l)).

  Lemma display_tail f r :
    display_record f r = "PcSaftRecord(m=" ++ fmt_num f (r_m r) ++ tail_of (tl (shown f r)).
  Proof.
    rewrite C30_record_display. unfold shown at 1. cbn [app map]. rewrite joined_tail.
    unfold shown. cbn [app tl].
    set (l := flat_map _ _). cbn [fold_right tail_of assign fst snd].
    assert (G : forall l : list (string * string),
      fold_right (fun x acc => ", " ++ x ++ acc) "" (map assign l) ++ ")" = tail_of l).
    { clear. induction l as [ | [k v] l IH]; auto. cbn [map fold_right tail_of fst snd]. fold (tail_of l).
      unfold assign at 1. cbn [fst snd]. rewrite !sapp_assoc, IH. reflexivity. }
    fold (tail_of l). unfold assign; cbn [fst snd]. rewrite !sapp_assoc. rewrite G. reflexivity.
  Qed.

  (** Display of a record mentions an optional parameter exactly when it is set. *)
  Theorem C30_record_mentions f r key : no_equals f -> In key optional_keys ->
    mentions key (display_record f r) <-> entry r key <> None.
  Proof.
    intros [Fn Fd] I. rewrite display_tail.
    assert (Ok : key_ok key).
    { cbn in I. repeat destruct I as [<- | I]; try destruct I; split; cbn; repeat split; discriminate. }
    assert (Sel : forall L : list (string * option string),
      In key (map fst (flat_map (fun kv => match snd kv with Some v => [(fst kv, v)] | None => [] end) L)) <->
      exists o, In (key, o) L /\ o <> None).
    { induction L as [ | [k [v | ]] L IH]; cbn [flat_map snd fst app map].
      - split; [intros [] | intros (o & [] & _)].
      - cbn [In]. rewrite IH. split.
        + intros [-> | (o & H & N)]; [exists (Some v); split; [auto | discriminate] | exists o; auto].
        + intros (o & [H | H] & N); [left; congruence | right; eauto].
      - rewrite IH. split.
        + intros (o & H & N). exists o. split; [right | ]; auto.
        + intros (o & [H | H] & N); [congruence | eauto]. }
    assert (S : In key (map fst (tl (shown f r))) <-> entry r key <> None).
    { unfold shown. cbn [app tl]. set (L := [_; _; _; _; _; _; _; _; _]).
      cbn [map fst In]. rewrite Sel.
      assert (Q : forall o, In (key, o) L -> (o = None <-> entry r key = None)).
      { intros o H. unfold L in H. cbn in H.
        repeat (destruct H as [H | H]; [injection H as <- <-; unfold entry, num_of, arr_of;
          cbn [String.eqb Ascii.eqb Bool.eqb]; unfold option_map;
          match goal with |- context [match ?o with Some _ => _ | None => _ end] =>
            match o with context [match _ with _ => _ end] => fail 1 | _ => idtac end;
            destruct o; split; congruence end | ]). destruct H. }
      assert (E : exists o, In (key, o) L).
      { unfold L. cbn in I. cbn.
        repeat destruct I as [<- | I]; try destruct I; eexists; tauto. }
      split.
      - intros [<- | [<- | (o & H & N)]].
        + cbn in I. repeat destruct I as [I | I]; try discriminate I; destruct I.
        + cbn in I. repeat destruct I as [I | I]; try discriminate I; destruct I.
        + rewrite <- (Q o H). auto.
      - intros N. right. right. destruct E as (o & H). exists o. split; auto. rewrite (Q o H). auto. }
    assert (Fk : Forall (fun kv => key_ok (fst kv) /\ free eqc (snd kv)) (tl (shown f r))).
    { unfold shown. cbn [app tl]. 
      constructor; [cbn [fst snd]; split; [split; cbn; repeat split; discriminate | apply Fn] | ].
      constructor; [cbn [fst snd]; split; [split; cbn; repeat split; discriminate | apply Fn] | ].
      apply Forall_forall. intros [k v] H. apply in_flat_map in H. destruct H as ([k' o] & H & V).
      cbn [fst snd] in *. destruct o as [w | ]; [ | destruct V]. destruct V as [V | []]. injection V as -> ->.
      cbn in H.
      repeat (destruct H as [H | H]; [injection H as <- H; split;
        [split; cbn; repeat split; discriminate | 
         match type of H with option_map _ ?o = _ => destruct o; cbn in H; [injection H as <- | discriminate H] end;
         first [apply Fn | apply Fd]] | ]). destruct H. }
    rewrite <- S. split.
    - intros (a & b & E). apply (mention_tail key Ok _ (fmt_num f (r_m r))); auto.
      change ("PcSaftRecord(m=" ++ fmt_num f (r_m r) ++ tail_of (tl (shown f r)))
        with ("PcSaftRecord(m" ++ String eqc (fmt_num f (r_m r) ++ tail_of (tl (shown f r)))) in E.
      change ("=" ++ b) with (String eqc b) in E. rewrite <- (sapp_assoc ", "), <- sapp_assoc in E.
      apply uncut in E; [ | cbn; repeat split; discriminate].
      destruct E as [[E _] | (a' & E & E')].
      + exfalso. assert (F : free " " "PcSaftRecord(m") by (cbn; repeat split; discriminate).
        rewrite E in F. change (", " ++ key) with ("," ++ String " " key) in F.
        rewrite <- sapp_assoc in F. apply not_free in F. auto.
      + assert (Q : exists a'', a' = a'' ++ ", " ++ key).
        { eapply suffix_of in E; [exact E | ]. apply free_app. split; [ | apply Ok].
          cbn; repeat split; discriminate. }
        destruct Q as (a'' & ->). exists a'', b. rewrite E', !sapp_assoc. reflexivity.
    - intros H. destruct (tail_mention _ _ H) as (a & b & E). rewrite E.
      exists ("PcSaftRecord(m=" ++ fmt_num f (r_m r) ++ a), b. rewrite !sapp_assoc. reflexivity.
  Qed.

  (* ------------------------------------------------------------------------- markdown *)

  (** numbers are printed on one line and without a column separator *)
  Definition tidy f : Prop :=
    (forall x, free bar (fmt_num f x) /\ free newline (fmt_num f x)) /\
    (forall n, free bar (fmt_nat f n) /\ free newline (fmt_nat f n)).
  Definition tidy_name (pr : pure_record K) : Prop :=
    match id_name (pr_id pr) with Some s => free bar s /\ free newline s | None => True end.

  (** the eleven columns of component number i *)
  Definition columns f (pr : pure_record K) (i : nat) : list string :=
    let r := pr_model pr in
    let num (o : option T) (d : T) := fmt_num f (match o with Some x => x | None => d end) in
    [match id_name (pr_id pr) with Some s => s | None => "Component " ++ fmt_nat f (i + 1) end;
     fmt_num f (pr_molarweight pr); fmt_num f (r_m r); fmt_num f (r_sigma r); fmt_num f (r_epsilon_k r);
     num (r_mu r) n0; num (r_q r) n0; num (r_kappa_ab r) n0; num (r_epsilon_k_ab r) n0;
     num (r_na r) n1; num (r_nb r) n1].

  Fixpoint row_text (cols : list string) : string :=
    match cols with [] => "|" | c :: cols => "|" ++ c ++ row_text cols end.
  Lemma row_text_split cols : Forall (free bar) cols -> split bar (row_text cols) = (("" :: cols) ++ [""])%list.
  Proof.
    assert (G : forall cols, Forall (free bar) cols -> exists t, row_text cols = String bar t /\
      split bar t = (cols ++ [""])%list).
    { clear. induction cols as [ | c cols IH]; intros F.
      - exists "". auto.
      - inversion F; subst. destruct (IH H2) as (t & E & S). exists (c ++ String bar t). split.
        + cbn [row_text]. rewrite E. reflexivity.
        + rewrite split_cut, S; auto. }
    intros F. destruct (G _ F) as (t & -> & S). rewrite split_head, S. reflexivity.
  Qed.
  Lemma row_text_free c cols : c <> bar -> Forall (free c) cols -> free c (row_text cols).
  Proof.
    intros N. induction 1; cbn [row_text].
    - cbn. split; auto.
    - rewrite !free_app. repeat split; auto.
  Qed.

  Lemma lines_split hd rows : free newline hd -> Forall (free newline) rows ->
    split newline (hd ++ String.concat "" (map (fun s => nl ++ s) rows)) = hd :: rows.
  Proof.
    assert (C : forall l, String.concat "" (map (fun s => nl ++ s) l) =
      fold_right (fun s acc => String newline (s ++ acc)) "" l).
    { induction l as [ | s l IH]; auto. cbn [map]. destruct l as [ | s' l].
      - cbn. rewrite sapp_nil. reflexivity.
      - change (String.concat "" ((nl ++ s) :: map (fun s => nl ++ s) (s' :: l))) with
          ((nl ++ s) ++ "" ++ String.concat "" (map (fun s => nl ++ s) (s' :: l))).
        rewrite IH. cbn [append]. rewrite sapp_assoc. reflexivity. }
    rewrite C. intros F R. revert hd F. induction R as [ | s l Hs Hl IH]; intros hd F; cbn [fold_right].
    - rewrite sapp_nil. apply split_free; auto.
    - rewrite split_cut by auto. f_equal. apply IH. auto.
  Qed.

  (** to_markdown: a header, a separator and one row of eleven columns per component, in the
      order of the records and showing the values of the record. *)
  Theorem C30_markdown f (prs : list (pure_record K)) bin p :
    from_records prs bin = Some p -> tidy f -> Forall tidy_name prs ->
    exists text header separator rows,
      to_markdown f p = Some text /\
      split newline text = header :: separator :: rows /\
      split bar header = ["" ; "component"; "molarweight"; "$m$"; "$\sigma$"; "$\varepsilon$"; "$\mu$"; "$Q$";
        "$\kappa_{AB}$"; "$\varepsilon_{AB}$"; "$N_A$"; "$N_B$"; ""] /\
      split bar separator = [""; "-"; "-"; "-"; "-"; "-"; "-"; "-"; "-"; "-"; "-"; "-"; ""] /\
      List.length rows = List.length prs /\
      forall i pr, nth_error prs i = Some pr ->
        exists row, nth_error rows i = Some row /\ split bar row = (("" :: columns f pr i) ++ [""])%list.
  Proof.
    intros Hp [Tn Tm] Names.
    assert (Hraw : p = from_records_raw prs bin).
    { unfold from_records in Hp. destruct (binary_ok _ _); [injection Hp as <-; auto | discriminate]. }
    assert (Row : forall i pr, nth_error prs i = Some pr ->
      md_row f p pr i = nl ++ row_text (columns f pr i)).
    { intros i pr E. subst p.
      assert (I : forall g : pure_record K -> T, ix (map g prs) i = g pr).
      { intros g. unfold ix. apply nth_error_nth. rewrite nth_error_map, E. reflexivity. }
      unfold md_row, from_records_raw, columns.
      cbn [p_molarweight p_m p_sigma p_epsilon_k p_mu p_q p_kappa_ab p_epsilon_k_ab p_na p_nb].
      rewrite !map_map, !I. cbn [row_text]. unfold unwrap_or. rewrite ?sapp_assoc. reflexivity. }
    set (rows := fix rows (l : list (pure_record K)) (k : nat) : list string :=
      match l with [] => [] | pr :: l => row_text (columns f pr k) :: rows l (S k) end).
    assert (Len : forall l k, List.length (rows l k) = List.length l)
      by (induction l; intros; cbn; auto).
    assert (Nth : forall l k i pr, nth_error l i = Some pr ->
      nth_error (rows l k) i = Some (row_text (columns f pr (k + i)))).
    { induction l as [ | a l IH]; intros k [ | i] pr E; cbn in E |- *; try discriminate.
      - injection E as ->. rewrite Nat.add_0_r. auto.
      - replace (k + S i)%nat with (S k + i)%nat by lia. exact (IH (S k) i pr E). }
    assert (Cols : forall i pr, nth_error prs i = Some pr ->
      Forall (free bar) (columns f pr i) /\ Forall (free newline) (columns f pr i)).
    { intros i pr E. pose proof (proj1 (Forall_forall _ _) Names pr (nth_error_In _ _ E)) as N.
      unfold tidy_name in N. unfold columns. cbv zeta.
      split; (constructor; [destruct (id_name (pr_id pr)); [apply N | apply free_app; split;
        [cbn; repeat split; discriminate | apply Tm]] | ]);
      repeat (constructor; [apply Tn | ]); constructor. }
    assert (RowsFree : Forall (free newline) (rows prs 0%nat)).
    { apply Forall_forall. intros s H. apply In_nth_error in H. destruct H as (i & H).
      destruct (nth_error prs i) as [pr | ] eqn:E.
      - rewrite (Nth _ _ _ _ E) in H. apply (f_equal (fun o => match o with Some x => x | None => s end)) in H.
        cbv beta iota in H. rewrite <- H. apply row_text_free; [discriminate | ]. apply (Cols _ _ E).
      - apply nth_error_None in E. rewrite <- (Len prs 0%nat) in E. apply nth_error_None in E. congruence. }
    assert (Map : map (fun i => match nth_error (p_pure_records p) i with
        | Some pr => Some (md_row f p pr i) | None => None end) (seq 0 (List.length (p_m p)))
      = map Some (map (fun s => nl ++ s) (rows prs 0%nat))).
    { assert (L : List.length (p_m p) = List.length prs) by (subst p; cbn; rewrite !map_length; auto).
      assert (PR : p_pure_records p = prs) by (subst p; reflexivity). rewrite L, PR. clear L PR.
      assert (G : forall l pre, prs = (pre ++ l)%list ->
        map (fun i => match nth_error prs i with Some pr => Some (md_row f p pr i) | None => None end)
          (seq (List.length pre) (List.length l)) = map Some (map (fun s => nl ++ s) (rows l (List.length pre)))).
      { induction l as [ | a l IH]; intros pre E; auto.
        assert (Ea : nth_error prs (List.length pre) = Some a).
        { rewrite E, nth_error_app2, Nat.sub_diag; auto. }
        cbn [List.length seq map rows]. rewrite Ea, (Row _ _ Ea). f_equal.
        specialize (IH (pre ++ [a])%list). rewrite app_length, Nat.add_1_r in IH. apply IH.
        rewrite E, <- app_assoc. reflexivity. }
      apply (G prs []). reflexivity. }
    exists (md_header ++ String.concat "" (map (fun s => nl ++ s) (rows prs 0%nat))),
      "|component|molarweight|$m$|$\sigma$|$\varepsilon$|$\mu$|$Q$|$\kappa_{AB}$|$\varepsilon_{AB}$|$N_A$|$N_B$|",
      "|-|-|-|-|-|-|-|-|-|-|-|", (rows prs 0%nat).
    split; [ | split; [ | split; [ | split; [ | split]]]].
    - unfold to_markdown. rewrite Map, collect_opt_Some. reflexivity.
    - unfold md_header. rewrite !sapp_assoc.
      change (nl ++ "|-|-|-|-|-|-|-|-|-|-|-|" ++ ?z) with (String newline ("|-|-|-|-|-|-|-|-|-|-|-|" ++ z)).
      rewrite split_cut by (cbn; repeat split; discriminate). f_equal.
      apply lines_split; [cbn; repeat split; discriminate | auto].
    - reflexivity.
    - reflexivity.
    - apply Len.
    - intros i pr E. exists (row_text (columns f pr i)). split.
      + exact (Nth _ _ _ _ E).
      + apply row_text_split. apply (Cols _ _ E).
  Qed.
End Readable.

(* --------------------------------------------------------------- Display of parameter sets *)

(** arrays are printed on one line (matrices need not be) *)
Definition one_line (f : formatter RNum) : Prop := forall l, free newline (fmt_arr f l).

Definition tabbed (label : string) (value : string) : string := tab ++ label ++ "=" ++ value.

Lemma k_all_zero (M : list (list R)) :
  forallb (forallb (fun k => @neqb RNum k n0)) M = true <-> (forall row k, In row M -> In k row -> k = 0%R).
Proof.
  rewrite forallb_forall. split.
  - intros H row k Hr Hk. specialize (H row Hr). rewrite forallb_forall in H. specialize (H k Hk).
    apply Reqb_true in H. rewrite H. rn. reflexivity.
  - intros H row Hr. apply forallb_forall. intros k Hk. apply Reqb_true. rewrite (H row k Hr Hk). rn. reflexivity.
Qed.

Theorem C30_params_display (f : formatter RNum) (prs : list (pure_record RNum)) bin p :
  from_records prs bin = Some p -> (forall pr, In pr prs -> physical_record (pr_model pr)) -> one_line f ->
  exists dip quad assoc kij : list string,
    split newline (display_params f p) =
      ("PcSaftParameters(" ::
       tabbed "molarweight" (fmt_arr f (map pr_molarweight prs)) ::
       tabbed "m" (fmt_arr f (map (fun pr : pure_record RNum => r_m (pr_model pr)) prs)) ::
       tabbed "sigma" (fmt_arr f (map (fun pr : pure_record RNum => r_sigma (pr_model pr)) prs)) ::
       tabbed "epsilon_k" (fmt_arr f (map (fun pr : pure_record RNum => r_epsilon_k (pr_model pr)) prs)) ::
       dip ++ quad ++ assoc ++ kij ++ [")"])%list /\
    (let val (g : pcsaft_record RNum -> option R) d pr := opt_or (g (pr_model pr)) d in
     ((exists pr, In pr prs /\ val r_mu 0%R pr <> 0%R) -> dip = [tabbed "mu" (fmt_arr f (map (val r_mu 0%R) prs))]) /\
     ((forall pr, In pr prs -> val r_mu 0%R pr = 0%R) -> dip = []) /\
     ((exists pr, In pr prs /\ val r_q 0%R pr <> 0%R) -> quad = [tabbed "q" (fmt_arr f (map (val r_q 0%R) prs))]) /\
     ((forall pr, In pr prs -> val r_q 0%R pr = 0%R) -> quad = []) /\
     ((exists pr, In pr prs /\ val r_kappa_ab 0%R pr <> 0%R) ->
        assoc = [tabbed "kappa_ab" (fmt_arr f (map (val r_kappa_ab 0%R) prs));
                 tabbed "epsilon_k_ab" (fmt_arr f (map (val r_epsilon_k_ab 0%R) prs));
                 tabbed "na" (fmt_arr f (map (val r_na 1%R) prs));
                 tabbed "nb" (fmt_arr f (map (val r_nb 1%R) prs))]) /\
     ((forall pr, In pr prs -> val r_kappa_ab 0%R pr = 0%R) -> assoc = [])) /\
    ((exists row k, In row bin /\ In k row /\ k <> 0%R) -> kij = tabbed "k_ij" "" :: split newline (fmt_mat f bin)) /\
    ((forall row k, In row bin -> In k row -> k = 0%R) -> kij = []).
Proof.
  intros Hp Hph F1.
  destruct (C17_index_sets prs bin p Hp Hph) as (D & Q & A & _).
  pose proof (from_records_raw_of _ _ _ Hp) as Hraw.
  assert (Emp : forall (l : list nat) (q : pcsaft_record RNum -> Prop), index_set prs l q ->
    ((exists pr, In pr prs /\ q (pr_model pr)) -> l <> []) /\
    ((forall pr, In pr prs -> ~ q (pr_model pr)) -> l = [])).
  { intros l q (_ & _ & I). split.
    - intros (pr & H & Hq) ->. apply In_nth_error in H. destruct H as (i & H). apply (I i). eauto.
    - intros H. destruct l as [ | i l]; auto. exfalso.
      destruct (proj1 (I i) (or_introl eq_refl)) as (pr & E & Hq). apply (H pr (nth_error_In _ _ E) Hq). }
  apply Emp in D, Q, A.
  assert (MW : p_molarweight p = map pr_molarweight prs) by (subst p; reflexivity).
  assert (E1 : p_m p = map (fun pr : pure_record RNum => r_m (pr_model pr)) prs) by (subst p; cbn; apply map_map).
  assert (E2 : p_sigma p = map (fun pr : pure_record RNum => r_sigma (pr_model pr)) prs) by (subst p; cbn; apply map_map).
  assert (E3 : p_epsilon_k p = map (fun pr : pure_record RNum => r_epsilon_k (pr_model pr)) prs) by (subst p; cbn; apply map_map).
  assert (Z0 : forall o : option R, @unwrap_or R o (@n0 RNum) = opt_or o 0%R) by (intros []; cbn; auto; rn; lra).
  assert (Z1 : forall o : option R, @unwrap_or R o (@n1 RNum) = opt_or o 1%R) by (intros []; cbn; auto; rn; lra).
  assert (E4 : p_mu p = map (fun pr : pure_record RNum => opt_or (r_mu (pr_model pr)) 0%R) prs).
  { subst p. unfold from_records_raw; cbn [p_mu]. rewrite map_map. apply map_ext. intros; apply Z0. }
  assert (E5 : p_q p = map (fun pr : pure_record RNum => opt_or (r_q (pr_model pr)) 0%R) prs).
  { subst p. unfold from_records_raw; cbn [p_q]. rewrite map_map. apply map_ext. intros; apply Z0. }
  assert (E6 : p_kappa_ab p = map (fun pr : pure_record RNum => opt_or (r_kappa_ab (pr_model pr)) 0%R) prs).
  { subst p. unfold from_records_raw; cbn [p_kappa_ab]. rewrite map_map. apply map_ext. intros; apply Z0. }
  assert (E7 : p_epsilon_k_ab p = map (fun pr : pure_record RNum => opt_or (r_epsilon_k_ab (pr_model pr)) 0%R) prs).
  { subst p. unfold from_records_raw; cbn [p_epsilon_k_ab]. rewrite map_map. apply map_ext. intros; apply Z0. }
  assert (E8 : p_na p = map (fun pr : pure_record RNum => opt_or (r_na (pr_model pr)) 1%R) prs).
  { subst p. unfold from_records_raw; cbn [p_na]. rewrite map_map. apply map_ext. intros; apply Z1. }
  assert (E9 : p_nb p = map (fun pr : pure_record RNum => opt_or (r_nb (pr_model pr)) 1%R) prs).
  { subst p. unfold from_records_raw; cbn [p_nb]. rewrite map_map. apply map_ext. intros; apply Z1. }
  assert (EK : p_k_ij p = bin) by (subst p; reflexivity).
  unfold display_params. rewrite MW, E1, E2, E3, E4, E5, E6, E7, E8, E9, EK.
  set (zero := forallb _ bin).
  assert (HZ : zero = true <-> (forall row k, In row bin -> In k row -> k = 0%R)) by apply k_all_zero.
  clearbody zero. clear Hp Hraw MW E1 E2 E3 E4 E5 E6 E7 E8 E9 EK Z0 Z1 Emp.
  set (mu := map (fun pr : pure_record RNum => opt_or (r_mu (pr_model pr)) 0%R) prs).
  set (q := map (fun pr : pure_record RNum => opt_or (r_q (pr_model pr)) 0%R) prs).
  set (ka := map (fun pr : pure_record RNum => opt_or (r_kappa_ab (pr_model pr)) 0%R) prs).
  set (ea := map (fun pr : pure_record RNum => opt_or (r_epsilon_k_ab (pr_model pr)) 0%R) prs).
  set (na := map (fun pr : pure_record RNum => opt_or (r_na (pr_model pr)) 1%R) prs).
  set (nb := map (fun pr : pure_record RNum => opt_or (r_nb (pr_model pr)) 1%R) prs).
  set (line := fun l => fold_right (fun s acc => String newline (s ++ acc)) "" l).
  set (dip := match p_dipole_comp p with [] => [] | _ => [tabbed "mu" (fmt_arr f mu)] end).
  set (quad := match p_quadpole_comp p with [] => [] | _ => [tabbed "q" (fmt_arr f q)] end).
  set (assoc := match p_assoc_comp p with [] => [] | _ =>
    [tabbed "kappa_ab" (fmt_arr f ka); tabbed "epsilon_k_ab" (fmt_arr f ea);
     tabbed "na" (fmt_arr f na); tabbed "nb" (fmt_arr f nb)] end).
  set (kij := if zero then [] else tabbed "k_ij" "" :: split newline (fmt_mat f bin)).
  exists dip, quad, assoc, kij.
  assert (Tab : forall label l, free newline label -> free newline (tabbed label (fmt_arr f l))).
  { intros label l H. unfold tabbed. rewrite !free_app. repeat split; auto; try (cbn; repeat split; discriminate). }
  assert (Lines : forall l z, Forall (free newline) l -> forall h, free newline h ->
    split newline (h ++ line l ++ String newline z) = (h :: l ++ split newline z)%list).
  { intros l z. induction l as [ | s l IH]; intros Fl h Fh; cbn [line fold_right app append].
    - apply split_cut; auto.
    - inversion Fl; subst. rewrite split_cut by auto. f_equal. fold (line l). rewrite sapp_assoc. apply IH; auto. }
  split; [ | split; [ | split]].
  - transitivity (split newline ("PcSaftParameters(" ++ line
      ([tabbed "molarweight" (fmt_arr f (map pr_molarweight prs));
        tabbed "m" (fmt_arr f (map (fun pr : pure_record RNum => r_m (pr_model pr)) prs));
        tabbed "sigma" (fmt_arr f (map (fun pr : pure_record RNum => r_sigma (pr_model pr)) prs));
        tabbed "epsilon_k" (fmt_arr f (map (fun pr : pure_record RNum => r_epsilon_k (pr_model pr)) prs))] ++ dip ++ quad ++ assoc)%list
      ++ String newline ((if zero then "" else tabbed "k_ij" "" ++ nl ++ fmt_mat f bin ++ nl) ++ ")"))).
    + f_equal. subst dip quad assoc. unfold line.
      destruct (p_dipole_comp p), (p_quadpole_comp p), (p_assoc_comp p), zero;
      cbn [app fold_right]; unfold tabbed; rewrite ?(append_cons newline), ?sapp_assoc;
      repeat (rewrite (append_cons newline), ?sapp_assoc); reflexivity.
    + rewrite Lines.
      * cbn [app]. do 5 f_equal. rewrite <- !app_assoc. do 3 f_equal. subst kij. destruct zero; [reflexivity | ].
        rewrite !sapp_assoc.
        change (nl ++ ?z) with (String newline z). rewrite split_cut by (cbn; repeat split; discriminate).
        cbn [app]. f_equal. change (nl ++ ?z) with (String newline z). rewrite split_app. reflexivity.
      * repeat (apply Forall_app; split).
        -- repeat (constructor; [apply Tab; cbn; repeat split; discriminate | ]). constructor.
        -- unfold dip. destruct (p_dipole_comp p); repeat (constructor; [apply Tab; cbn; repeat split; discriminate | ]); constructor.
        -- unfold quad. destruct (p_quadpole_comp p); repeat (constructor; [apply Tab; cbn; repeat split; discriminate | ]); constructor.
        -- unfold assoc. destruct (p_assoc_comp p); repeat (constructor; [apply Tab; cbn; repeat split; discriminate | ]); constructor.
      * cbn; repeat split; discriminate.
  - cbv zeta. unfold dip, quad, assoc.
    split; [ | split; [ | split; [ | split; [ | split]]]].
    + intros H. destruct (p_dipole_comp p); [exfalso; apply D; auto | reflexivity].
    + intros H. rewrite (proj2 D); auto.
    + intros H. destruct (p_quadpole_comp p); [exfalso; apply Q; auto | reflexivity].
    + intros H. rewrite (proj2 Q); auto.
    + intros H. destruct (p_assoc_comp p); [exfalso; apply A; auto | reflexivity].
    + intros H. rewrite (proj2 A); auto.
  - intros (row & k & Hr & Hk & N). unfold kij. destruct zero; auto. elim N. apply (proj1 HZ eq_refl row k); auto.
  - intros H. unfold kij. rewrite (proj2 HZ H). reflexivity.
Qed.

(* ------------------------------------------------------------------------------- examples *)

(** a record with some options set: its JSON form, read back from a shuffled file with an
    unknown key *)
Local Notation JN := (@JNum RNum).
Example C29_case :
  let r := @mkRec RNum 1.5%R 3.2%R 190%R None (Some 4.4%R) None None None None None None None in
  serialize r = JObj [("m", JN 1.5%R); ("sigma", JN 3.2%R); ("epsilon_k", JN 190%R); ("q", JN 4.4%R)] /\
  deserialize (JObj [("q", JN 4.4%R); ("sigma", JN 3.2%R); ("comment", JStr "CO2-like");
                     ("epsilon_k", JN 190%R); ("m", JN 1.5%R)]) = Some r /\
  deserialize (JObj [("q", JN 4.4%R); ("sigma", JN 3.2%R); ("epsilon_k", JN 190%R)]) = None /\
  deserialize (JObj [("m", JN 1%R); ("sigma", JN 3.2%R); ("epsilon_k", JN 190%R); ("m", JN 1%R)]) = None.
Proof. repeat split. Qed.

Definition plain_fmt : formatter RNum :=
  @mkFmt RNum (fun x => if Rltb x 0 then "-1.5" else "1.5") (fun _ => "[0.5, 0.5]") (fun _ => "[1.5, 1.5]")
    (fun _ => "[[0, 0.1]," ++ nl ++ " [0.1, 0]]") (fun n => if Nat.eqb n 1 then "1" else "2").

Lemma plain_ok : no_equals plain_fmt /\ tidy plain_fmt /\ one_line plain_fmt.
Proof.
  assert (F : forall c, In c [eqc; bar; newline] -> forall x, free c (fmt_num plain_fmt x)).
  { intros c H x. cbn [plain_fmt fmt_num]. destruct (Rltb x 0); cbn in H;
    destruct H as [<- | [<- | [<- | []]]]; cbn; repeat split; discriminate. }
  split; [ | split].
  - split; [apply F; cbn; auto | intros; cbn; repeat split; discriminate].
  - split; [intros x; split; apply F; cbn; auto | ]. intros n. cbn [plain_fmt fmt_nat].
    destruct (Nat.eqb n 1); cbn; repeat split; discriminate.
  - intros l. cbn. repeat split; discriminate.
Qed.

(** the record of carbon dioxide shows its quadrupole moment and no dipole moment *)
Example C30_record_case :
  mentions "q" (display_record plain_fmt (pr_model pr_co2)) /\
  ~ mentions "mu" (display_record plain_fmt (pr_model pr_co2)).
Proof.
  destruct plain_ok as (A & _ & _). split.
  - apply C30_record_mentions; [auto | cbn; tauto | cbn; discriminate].
  - intros H. apply C30_record_mentions in H; [ | auto | cbn; tauto]. apply H. reflexivity.
Qed.

(** three named components: three rows *)
Example C30_markdown_case : exists text header separator rows,
  to_markdown plain_fmt sample = Some text /\ split newline text = header :: separator :: rows /\
  List.length rows = 3%nat.
Proof.
  destruct plain_ok as (_ & A & _).
  destruct (C30_markdown plain_fmt sample_prs sample_bin sample sample_ok A) as (x & h & s & r & E & S & _ & _ & L & _).
  - repeat (constructor; [cbn; repeat split; discriminate | ]). constructor.
  - exists x, h, s, r. auto.
Qed.

(** the ternary sample has all three kinds of components and non-zero k_ij *)
Example C30_params_case : exists rest,
  split newline (display_params plain_fmt sample) =
    ("PcSaftParameters(" :: map (fun l => tabbed l "[1.5, 1.5]")
      ["molarweight"; "m"; "sigma"; "epsilon_k"; "mu"; "q"; "kappa_ab"; "epsilon_k_ab"; "na"; "nb"]
     ++ tabbed "k_ij" "" :: rest)%list.
Proof.
  destruct plain_ok as (_ & _ & A).
  destruct (C30_params_display plain_fmt sample_prs sample_bin sample sample_ok sample_physical A)
    as (d & q & a & k & E & H & Hk & _). destruct H as (Hd & _ & Hq & _ & Ha & _).
  rewrite Hd, Hq, Ha, Hk in E.
  - eexists. exact E.
  - exists [0%R; 0.01%R; (-0.02)%R], 0.01%R. split; [cbn; auto | split; [cbn; auto | lra]].
  - exists pr_water. split; [cbn; auto | cbn; lra].
  - exists pr_co2. split; [cbn; auto | cbn; lra].
  - exists pr_dme. split; [cbn; auto | cbn; lra].
Qed.

Print Assumptions C29_round_trip.
Print Assumptions C29_written.
Print Assumptions C29_mandatory.
Print Assumptions C29_optional.
Print Assumptions C29_key_order.
Print Assumptions C29_unknown_keys.
Print Assumptions C29_duplicates_rejected.
Print Assumptions C30_record_display.
Print Assumptions C30_record_mentions.
Print Assumptions C30_markdown.
Print Assumptions C30_params_display.
