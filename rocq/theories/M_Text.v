(** Model of the textual interfaces: serde (de)serialisation of PcSaftRecord (derive on
    parameters.rs 11-46), Display of PcSaftRecord (156-191), to_markdown (451-481), Display of
    PcSaftParameters (484-508), and the option name parser of src/python.rs (15-23). *)
From Coq Require Import ZArith QArith List Bool String Ascii.
From Verif Require Import Num M_Params M_Eos.
Import ListNotations.
Local Open Scope string_scope.

Section Text.
  Context {K : Num}.
  Notation T := (car K).

  (** JSON values (serde_json, external) *)
  Inductive json :=
    | JNull | JBool (b : bool) | JNum (x : T) | JStr (s : string)
    | JArr (l : list json) | JObj (l : list (string * json)).

  (* ------------------------------------------------------------------------ serde *)

  (** Serialize for Option with skip_serializing_if = Option::is_none *)
  Definition ser_opt {A} (key : string) (f : A -> json) (o : option A) : list (string * json) :=
    match o with Some a => [(key, f a)] | None => [] end.
  Definition ser_list (l : list T) : json := JArr (map JNum l).

  (** derived Serialize, parameters.rs 11-46 *)
  Definition serialize (r : pcsaft_record K) : json :=
    JObj ([("m", JNum (r_m r)); ("sigma", JNum (r_sigma r)); ("epsilon_k", JNum (r_epsilon_k r))]
      ++ ser_opt "mu" JNum (r_mu r)
      ++ ser_opt "q" JNum (r_q r)
      ++ ser_opt "kappa_ab" JNum (r_kappa_ab r)
      ++ ser_opt "epsilon_k_ab" JNum (r_epsilon_k_ab r)
      ++ ser_opt "na" JNum (r_na r)
      ++ ser_opt "nb" JNum (r_nb r)
      ++ ser_opt "viscosity" (fun a => ser_list (l4 a)) (r_viscosity r)
      ++ ser_opt "diffusion" (fun a => ser_list (l5 a)) (r_diffusion r)
      ++ ser_opt "thermal_conductivity" (fun a => ser_list (l4 a)) (r_thermal r)).

  (** field lookup of a derived Deserialize: all entries of a key, in order.  A key that occurs
      twice is rejected ("duplicate field"), unknown keys are ignored. *)
  Definition find_key (key : string) (l : list (string * json)) : list json :=
    map snd (filter (fun kv => String.eqb key (fst kv)) l).

  Definition de_num (j : json) : option T := match j with JNum x => Some x | _ => None end.
  Definition de_arr (n : nat) (j : json) : option (list T) :=
    match j with
    | JArr l => match collect_opt (map de_num l) with
                | Some v => if Nat.eqb (List.length v) n then Some v else None
                | None => None
                end
    | _ => None
    end.
  Definition de_arr4 (j : json) : option (arr4 K) :=
    match de_arr 4 j with Some [a; b; c; d] => Some (a, b, c, d) | _ => None end.
  Definition de_arr5 (j : json) : option (arr5 K) :=
    match de_arr 5 j with Some [a; b; c; d; e] => Some (a, b, c, d, e) | _ => None end.

  (** mandatory field: exactly one entry, of the right type *)
  Definition req_field (key : string) (l : list (string * json)) : option T :=
    match find_key key l with [j] => de_num j | _ => None end.
  (** optional field: missing or null is None; the outer option is success *)
  Definition opt_field {A} (key : string) (de : json -> option A) (l : list (string * json))
      : option (option A) :=
    match find_key key l with
    | [] => Some None
    | [JNull] => Some None
    | [j] => match de j with Some a => Some (Some a) | None => None end
    | _ => None
    end.

  Definition bind {A B} (o : option A) (f : A -> option B) : option B :=
    match o with Some a => f a | None => None end.

  (** derived Deserialize from a JSON object, parameters.rs 11-46; None = error.  (serde also
      accepts a sequence of field values; that form is not modelled.) *)
  Definition deserialize (j : json) : option (pcsaft_record K) :=
    match j with
    | JObj l =>
        bind (req_field "m" l) (fun m =>
        bind (req_field "sigma" l) (fun sigma =>
        bind (req_field "epsilon_k" l) (fun eps =>
        bind (opt_field "mu" de_num l) (fun mu =>
        bind (opt_field "q" de_num l) (fun q =>
        bind (opt_field "kappa_ab" de_num l) (fun kap =>
        bind (opt_field "epsilon_k_ab" de_num l) (fun eab =>
        bind (opt_field "na" de_num l) (fun na =>
        bind (opt_field "nb" de_num l) (fun nb =>
        bind (opt_field "viscosity" de_arr4 l) (fun v =>
        bind (opt_field "diffusion" de_arr5 l) (fun d =>
        bind (opt_field "thermal_conductivity" de_arr4 l) (fun th =>
        Some (mkRec m sigma eps mu q kap eab na nb v d th)))))))))))))
    | _ => None
    end.

  (** PcSaftBinaryRecord: derived Serialize / Deserialize, parameters.rs 224-227 *)
  Definition serialize_binary (k_ij : T) : json := JObj [("k_ij", JNum k_ij)].
  Definition deserialize_binary (j : json) : option T :=
    match j with JObj l => req_field "k_ij" l | _ => None end.

  (* ---------------------------------------------------------------------- Display *)

  (** number and array formatting of Rust / ndarray: arbitrary functions *)
  Record formatter := mkFmt {
    fmt_num : T -> string;              (* {} of f64 *)
    fmt_dbg : list T -> string;         (* {:?} of [f64; n] *)
    fmt_arr : list T -> string;         (* {} of Array1<f64> *)
    fmt_mat : list (list T) -> string;  (* {} of Array2<f64> *)
    fmt_nat : nat -> string }.          (* {} of usize *)

  Definition disp_opt {A} (label : string) (f : A -> string) (o : option A) : string :=
    match o with Some a => ", " ++ label ++ "=" ++ f a | None => "" end.

  (** parameters.rs 156-191 *)
  Definition display_record (f : formatter) (r : pcsaft_record K) : string :=
    "PcSaftRecord(m=" ++ fmt_num f (r_m r)
    ++ ", sigma=" ++ fmt_num f (r_sigma r)
    ++ ", epsilon_k=" ++ fmt_num f (r_epsilon_k r)
    ++ disp_opt "mu" (fmt_num f) (r_mu r)
    ++ disp_opt "q" (fmt_num f) (r_q r)
    ++ disp_opt "kappa_ab" (fmt_num f) (r_kappa_ab r)
    ++ disp_opt "epsilon_k_ab" (fmt_num f) (r_epsilon_k_ab r)
    ++ disp_opt "na" (fmt_num f) (r_na r)
    ++ disp_opt "nb" (fmt_num f) (r_nb r)
    ++ disp_opt "viscosity" (fun a => fmt_dbg f (l4 a)) (r_viscosity r)
    ++ disp_opt "diffusion" (fun a => fmt_dbg f (l5 a)) (r_diffusion r)
    ++ disp_opt "thermal_conductivity" (fun a => fmt_dbg f (l4 a)) (r_thermal r)
    ++ ")".

  Definition nl : string := String (Ascii.ascii_of_nat 10) "".
  Definition tab : string := String (Ascii.ascii_of_nat 9) "".

  (** parameters.rs 454-458 *)
  Definition md_header : string :=
    "|component|molarweight|$m$|$\sigma$|$\varepsilon$|$\mu$|$Q$|$\kappa_{AB}$|$\varepsilon_{AB}$|$N_A$|$N_B$|"
    ++ nl ++ "|-|-|-|-|-|-|-|-|-|-|-|".
  (** parameters.rs 459-478, component i *)
  Definition md_row (f : formatter) (p : params K) (pr : pure_record K) (i : nat) : string :=
    nl ++ "|" ++ (match id_name (pr_id pr) with
                  | Some s => s
                  | None => "Component " ++ fmt_nat f (i + 1)
                  end)
    ++ "|" ++ fmt_num f (ix (p_molarweight p) i)
    ++ "|" ++ fmt_num f (ix (p_m p) i)
    ++ "|" ++ fmt_num f (ix (p_sigma p) i)
    ++ "|" ++ fmt_num f (ix (p_epsilon_k p) i)
    ++ "|" ++ fmt_num f (ix (p_mu p) i)
    ++ "|" ++ fmt_num f (ix (p_q p) i)
    ++ "|" ++ fmt_num f (ix (p_kappa_ab p) i)
    ++ "|" ++ fmt_num f (ix (p_epsilon_k_ab p) i)
    ++ "|" ++ fmt_num f (ix (p_na p) i)
    ++ "|" ++ fmt_num f (ix (p_nb p) i)
    ++ "|".
  (** parameters.rs 451-481; None = panic ([pure_records[i]] out of bounds) *)
  Definition to_markdown (f : formatter) (p : params K) : option string :=
    match collect_opt (map (fun i =>
            match nth_error (p_pure_records p) i with
            | Some pr => Some (md_row f p pr i)
            | None => None
            end) (seq 0 (List.length (p_m p)))) with
    | Some rows => Some (md_header ++ String.concat "" rows)
    | None => None
    end.

  (** parameters.rs 484-508 *)
  Definition display_params (f : formatter) (p : params K) : string :=
    "PcSaftParameters("
    ++ nl ++ tab ++ "molarweight=" ++ fmt_arr f (p_molarweight p)
    ++ nl ++ tab ++ "m=" ++ fmt_arr f (p_m p)
    ++ nl ++ tab ++ "sigma=" ++ fmt_arr f (p_sigma p)
    ++ nl ++ tab ++ "epsilon_k=" ++ fmt_arr f (p_epsilon_k p)
    ++ (match p_dipole_comp p with [] => "" | _ => nl ++ tab ++ "mu=" ++ fmt_arr f (p_mu p) end)
    ++ (match p_quadpole_comp p with [] => "" | _ => nl ++ tab ++ "q=" ++ fmt_arr f (p_q p) end)
    ++ (match p_assoc_comp p with
        | [] => ""
        | _ => nl ++ tab ++ "kappa_ab=" ++ fmt_arr f (p_kappa_ab p)
               ++ nl ++ tab ++ "epsilon_k_ab=" ++ fmt_arr f (p_epsilon_k_ab p)
               ++ nl ++ tab ++ "na=" ++ fmt_arr f (p_na p)
               ++ nl ++ tab ++ "nb=" ++ fmt_arr f (p_nb p)
        end)
    ++ (if forallb (forallb (fun k => neqb k n0)) (p_k_ij p) then ""
        else nl ++ tab ++ "k_ij=" ++ nl ++ fmt_mat f (p_k_ij p))
    ++ nl ++ ")".

  (** src/python.rs 15-23; None = panic *)
  Definition parse_dq (s : string) : option dq_variant :=
    if String.eqb s "dq35" then Some DQ35
    else if String.eqb s "dq44" then Some DQ44
    else None.

  (** Display names of the contributions: hard_sphere.rs 34-38, hard_chain.rs 29-33,
      dispersion.rs 116-120, polar.rs 274-278, 371-375, 486-490, association.rs 71-75, 125-129 *)
  Definition contribution_name (c : contribution K) : string :=
    match c with
    | CHardSphere => "Hard Sphere"
    | CHardChain => "Hard Chain"
    | CDispersion => "Dispersion"
    | CDipole => "Dipole"
    | CQuadrupole => "Quadrupole"
    | CDipoleQuadrupole _ => "DipoleQuadrupole"
    | CAssociation => "Association"
    | CCrossAssociation _ _ => "Cross-association"
    end.
End Text.
Arguments json : clear implicits.
Arguments formatter : clear implicits.
