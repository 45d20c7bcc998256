(** Model of the Python layer: constructors with positional and keyword arguments (pyo3), getters,
    repr.  src/python.rs 25-130 and build_wheel/src/eos.rs 33-61, build_wheel/src/dft.rs 38-76.
    The methods generated by macros of feos_core are not modelled. *)
From Coq Require Import ZArith QArith String List Bool.
From Verif Require Import Num Tables M_Params M_Eos M_Dft M_Text.
Import ListNotations.
Local Open Scope string_scope.

Section Python.
  Context {K : Num}.
  Notation T := (car K).

  (** Python objects as far as the constructors distinguish them; [PySeq] is a list or tuple *)
  Inductive pyval :=
  | PyNone | PyFloat (x : T) | PyInt (z : Z) | PyStr (s : string) | PySeq (l : list pyval)
  | PyParams (p : params K) | PyFmt (v : fmt_version).
  (** what a call ends in: a value, an exception, or a Rust panic (PanicException) *)
  Inductive pyres (A : Type) := PyOk (a : A) | PyTypeError | PyValueError | PyOverflowError | PyPanic.
  Arguments PyOk {A}. Arguments PyTypeError {A}. Arguments PyValueError {A}.
  Arguments PyOverflowError {A}. Arguments PyPanic {A}.
  Definition pybind {A B} (r : pyres A) (f : A -> pyres B) : pyres B :=
    match r with
    | PyOk a => f a | PyTypeError => PyTypeError | PyValueError => PyValueError
    | PyOverflowError => PyOverflowError | PyPanic => PyPanic
    end.

  (** conversion of an argument to f64: floats and integers *)
  Definition to_f64 (v : pyval) : pyres T :=
    match v with PyFloat x => PyOk x | PyInt z => PyOk (nlit (inject_Z z)) | _ => PyTypeError end.
  (** to usize: integers from 0 to 2^64 - 1 *)
  Definition to_usize (v : pyval) : pyres nat :=
    match v with
    | PyInt z => if (z <? 0)%Z || (2 ^ 64 <=? z)%Z then PyOverflowError else PyOk (Z.to_nat z)
    | _ => PyTypeError
    end.
  Definition to_str (v : pyval) : pyres string := match v with PyStr s => PyOk s | _ => PyTypeError end.
  (** to Option<A> *)
  Definition to_option {A} (f : pyval -> pyres A) (v : pyval) : pyres (option A) :=
    match v with PyNone => PyOk None | _ => pybind (f v) (fun a => PyOk (Some a)) end.
  (** to [f64; n]: sequences of exactly n numbers *)
  Fixpoint to_f64s (l : list pyval) : pyres (list T) :=
    match l with
    | [] => PyOk []
    | v :: l => pybind (to_f64 v) (fun x => pybind (to_f64s l) (fun xs => PyOk (x :: xs)))
    end.
  Definition to_arr4 (v : pyval) : pyres (arr4 K) :=
    match v with
    | PySeq l =>
        if Nat.eqb (List.length l) 4
        then pybind (to_f64s l) (fun xs => match xs with [a; b; c; d] => PyOk (a, b, c, d) | _ => PyValueError end)
        else PyValueError
    | _ => PyTypeError
    end.
  Definition to_arr5 (v : pyval) : pyres (arr5 K) :=
    match v with
    | PySeq l =>
        if Nat.eqb (List.length l) 5
        then pybind (to_f64s l) (fun xs => match xs with [a; b; c; d; e] => PyOk (a, b, c, d, e) | _ => PyValueError end)
        else PyValueError
    | _ => PyTypeError
    end.
  Definition to_params (v : pyval) : pyres (params K) := match v with PyParams p => PyOk p | _ => PyTypeError end.
  Definition to_fmt (v : pyval) : pyres fmt_version := match v with PyFmt v => PyOk v | _ => PyTypeError end.

  (** a signature: names of the parameters with their default values *)
  Definition signature : Type := list (string * option pyval).
  Definition has_key {A} (key : string) (l : list (string * A)) : bool := existsb (fun kv => String.eqb (fst kv) key) l.
  Fixpoint lookup {A} (key : string) (l : list (string * A)) : option A :=
    match l with [] => None | (k, v) :: l => if String.eqb k key then Some v else lookup key l end.
  Fixpoint repeated {A} (l : list (string * A)) : bool :=
    match l with [] => false | (k, _) :: l => has_key k l || repeated l end.
  (** values of the parameters that got no positional argument *)
  Fixpoint fill (sg : signature) (kw : list (string * pyval)) : option (list pyval) :=
    match sg with
    | [] => Some []
    | (k, d) :: sg =>
        match (match lookup k kw with Some v => Some v | None => d end), fill sg kw with
        | Some v, Some l => Some (v :: l)
        | _, _ => None
        end
    end.
  (** argument binding of a call; None = TypeError: too many positional arguments, a keyword that
      is unknown, repeated or also given by position, or a missing argument *)
  Definition bind_args (sg : signature) (pos : list pyval) (kw : list (string * pyval)) : option (list pyval) :=
    let n := List.length pos in
    if Nat.ltb (List.length sg) n || repeated kw || negb (forallb (fun kv => has_key (fst kv) (skipn n sg)) kw) then None
    else match fill (skipn n sg) kw with Some l => Some (pos ++ l)%list | None => None end.

  (** src/python.rs 34-63; parameters of type Option default to None *)
  Definition record_signature : signature :=
    [("m", None); ("sigma", None); ("epsilon_k", None); ("mu", Some PyNone); ("q", Some PyNone);
     ("kappa_ab", Some PyNone); ("epsilon_k_ab", Some PyNone); ("na", Some PyNone); ("nb", Some PyNone);
     ("viscosity", Some PyNone); ("diffusion", Some PyNone); ("thermal_conductivity", Some PyNone)].
  Definition py_record_new (pos : list pyval) (kw : list (string * pyval)) : pyres (pcsaft_record K) :=
    match bind_args record_signature pos kw with
    | Some [m; sigma; epsilon_k; mu; q; kappa_ab; epsilon_k_ab; na; nb; viscosity; diffusion; thermal] =>
        pybind (to_f64 m) (fun m => pybind (to_f64 sigma) (fun sigma => pybind (to_f64 epsilon_k) (fun epsilon_k =>
        pybind (to_option to_f64 mu) (fun mu => pybind (to_option to_f64 q) (fun q =>
        pybind (to_option to_f64 kappa_ab) (fun kappa_ab => pybind (to_option to_f64 epsilon_k_ab) (fun epsilon_k_ab =>
        pybind (to_option to_f64 na) (fun na => pybind (to_option to_f64 nb) (fun nb =>
        pybind (to_option to_arr4 viscosity) (fun viscosity => pybind (to_option to_arr5 diffusion) (fun diffusion =>
        pybind (to_option to_arr4 thermal) (fun thermal =>
          PyOk (mkRec m sigma epsilon_k mu q kappa_ab epsilon_k_ab na nb viscosity diffusion thermal)))))))))))))
    | _ => PyTypeError
    end.

  (** getters, src/python.rs 65-123: what Python sees *)
  Definition from_f64s (l : list T) : pyval := PySeq (map PyFloat l).
  Definition from_opt {A} (f : A -> pyval) (o : option A) : pyval := match o with Some a => f a | None => PyNone end.
  Definition py_record_get (r : pcsaft_record K) (name : string) : option pyval :=
    lookup name
      [("m", PyFloat (r_m r)); ("sigma", PyFloat (r_sigma r)); ("epsilon_k", PyFloat (r_epsilon_k r));
       ("mu", from_opt PyFloat (r_mu r)); ("q", from_opt PyFloat (r_q r));
       ("kappa_ab", from_opt PyFloat (r_kappa_ab r)); ("epsilon_k_ab", from_opt PyFloat (r_epsilon_k_ab r));
       ("na", from_opt PyFloat (r_na r)); ("nb", from_opt PyFloat (r_nb r));
       ("viscosity", from_opt (fun a => from_f64s (l4 a)) (r_viscosity r));
       ("diffusion", from_opt (fun a => from_f64s (l5 a)) (r_diffusion r));
       ("thermal_conductivity", from_opt (fun a => from_f64s (l4 a)) (r_thermal r))].
  (** src/python.rs 125-127 *)
  Definition py_record_repr (f : formatter K) (r : pcsaft_record K) : string := display_record f r.

  (** build_wheel/src/eos.rs 40-46, 49-57 *)
  Definition option_defaults : signature :=
    [("max_eta", Some (PyFloat (nlit 0.5%Q))); ("max_iter_cross_assoc", Some (PyInt 50));
     ("tol_cross_assoc", Some (PyFloat (nlit 1e-10%Q))); ("dq_variant", Some (PyStr "dq35"))].
  Definition py_options (max_eta max_iter tol dq : pyval) : pyres (options K) :=
    pybind (to_f64 max_eta) (fun max_eta => pybind (to_usize max_iter) (fun max_iter =>
    pybind (to_f64 tol) (fun tol => pybind (to_str dq) (fun dq =>
      match parse_dq dq with
      | Some dq => PyOk {| o_max_eta := max_eta; o_max_iter := max_iter; o_tol := tol; o_dq := dq |}
      | None => PyPanic
      end)))).
  (** build_wheel/src/eos.rs 39-61 *)
  Definition eos_signature : signature := ("parameters", None) :: option_defaults.
  Definition py_eos_new (pos : list pyval) (kw : list (string * pyval)) : pyres (eos K) :=
    match bind_args eos_signature pos kw with
    | Some [p; max_eta; max_iter; tol; dq] =>
        pybind (to_params p) (fun p => pybind (py_options max_eta max_iter tol dq) (fun o => PyOk (with_options p o)))
    | _ => PyTypeError
    end.
  (** build_wheel/src/dft.rs 46-76 *)
  Definition functional_signature : signature :=
    ("parameters", None) :: ("fmt_version", Some (PyFmt WhiteBear)) :: option_defaults.
  Definition py_functional_new (pos : list pyval) (kw : list (string * pyval)) : pyres (functional K) :=
    match bind_args functional_signature pos kw with
    | Some [p; v; max_eta; max_iter; tol; dq] =>
        pybind (to_params p) (fun p => pybind (to_fmt v) (fun v =>
        pybind (py_options max_eta max_iter tol dq) (fun o => PyOk (f_with_options p v o))))
    | _ => PyTypeError
    end.
  (** src/python.rs 166-178 *)
  Definition py_pure_records (p : params K) : list (pure_record K) := p_pure_records p.
  Definition py_k_ij (p : params K) : list (list T) := p_k_ij p.
End Python.
Arguments pyval : clear implicits.
Arguments signature : clear implicits.
Arguments PyOk {A}. Arguments PyTypeError {A}. Arguments PyValueError {A}.
Arguments PyOverflowError {A}. Arguments PyPanic {A}.
