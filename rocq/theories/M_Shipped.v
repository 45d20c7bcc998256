(** Reading the parameter files shipped with the crate. *)
From Coq Require Import ZArith QArith List Bool String.
From Verif Require Import Num M_Params M_Eos M_Text Shipped.
Import ListNotations.
Local Open Scope string_scope.

Section Read.
  Context {K : Num}.
  Notation T := (car K).

  (** the JSON object of a "model_record" *)
  Definition value_json (x : qval) : json K :=
    match x with QN x => JNum (nlit x) | QA l => JArr (map (fun x => JNum (nlit x)) l) end.
  Definition model_json (l : list (string * qval)) : json K :=
    JObj (map (fun kv => (fst kv, value_json (snd kv))) l).

  (** feos_core PureRecord / SegmentRecord from JSON (external crate): identifier, molar weight,
      model record; the shipped entries have no ideal-gas record.  None = error. *)
  Definition read_pure (e : entry) : option (pure_record K) :=
    match deserialize (model_json (en_model e)) with
    | Some r => Some (mkPure (mkIdent None (Some (en_name e)) None None None None)
                        (nlit (en_molarweight e)) r None)
    | None => None
    end.
  Definition read_segment (e : entry) : option (pcsaft_record K) := deserialize (model_json (en_model e)).

  (** feos_core Parameter::from_segments (external crate): every segment identifier of a molecule
      is looked up in the segment file; None = a segment is missing or unreadable.  feos_core
      passes each kind of segment once with its multiplicity, the model once per occurrence with
      multiplicity one; C22 shows that grouping and order do not matter. *)
  Definition find_segment (file : list entry) (name : string) : option (pcsaft_record K) :=
    match find (fun e => String.eqb name (en_name e)) file with
    | Some e => read_segment e
    | None => None
    end.
  Definition molecule_segments (file : list entry) (names : list string)
      : option (list (pcsaft_record K * T)) :=
    collect_opt (map (fun s => match find_segment file s with
                               | Some r => Some (r, n1) | None => None end) names).
  Definition molecule_record (file : list entry) (names : list string) : option (pcsaft_record K) :=
    match molecule_segments file names with
    | Some l => Some (from_segments l)
    | None => None
    end.
End Read.

(** all substances shipped with the crate *)
Definition shipped : list entry :=
  gross2001 ++ gross2002 ++ gross2005_fit ++ gross2005_literature ++ gross2006
  ++ loetgeringlin2018 ++ rehner2020.
