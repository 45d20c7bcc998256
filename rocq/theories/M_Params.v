(** Model of src/parameters.rs: records, group contribution, parameter construction. *)
From Coq Require Import ZArith QArith List Bool String.
From Verif Require Import Num.
Import ListNotations.
Local Open Scope num_scope.

(** feos_core::parameter::Identifier (external crate): six optional strings.
    parameters.rs uses it in lines 304 and 460. *)
Record identifier := mkIdent {
  id_cas : option string; id_name : option string; id_iupac : option string;
  id_smiles : option string; id_inchi : option string; id_formula : option string }.

Section Params.
  Context {K : Num}.
  Notation T := (car K).

  Definition arr4 : Type := T * T * T * T.
  Definition arr5 : Type := T * T * T * T * T.
  Definition l4 (a : arr4) : list T := let '(a, b, c, d) := a in [a; b; c; d].
  Definition l5 (a : arr5) : list T := let '(a, b, c, d, e) := a in [a; b; c; d; e].

  (** feos_core::joback::JobackRecord (external crate): five coefficients. *)
  Record joback_record := mkJoback { jb_a : T; jb_b : T; jb_c : T; jb_d : T; jb_e : T }.

  (** parameters.rs 12-46: struct PcSaftRecord *)
  Record pcsaft_record := mkRec {
    r_m : T; r_sigma : T; r_epsilon_k : T;
    r_mu : option T; r_q : option T;
    r_kappa_ab : option T; r_epsilon_k_ab : option T;
    r_na : option T; r_nb : option T;
    r_viscosity : option arr4; r_diffusion : option arr5; r_thermal : option arr4 }.

  (** [filter_map(..).reduce(|a, b| a + b)]: None for an empty selection, otherwise the sum
      starting from the first element (no zero involved). *)
  Definition reduce_add (l : list T) : option T :=
    match l with nil => None | x :: l => Some (fold_left nadd l x) end.

  (** one optional parameter of from_segments, parameters.rs 60-83:
      [segments.iter().filter_map(|(s, n)| s.q.map(|q| q * *n)).reduce(|a, b| a + b)] *)
  Definition seg_opt (get : pcsaft_record -> option T) (segments : list (pcsaft_record * T)) : option T :=
    reduce_add (flat_map (fun p => match get (fst p) with Some v => [v * snd p] | None => [] end) segments).

  Definition seg_all {A} (get : pcsaft_record -> option A) (segments : list (pcsaft_record * T)) : bool :=
    forallb (fun p => match get (fst p) with Some _ => true | None => false end) segments.

  (** [unwrap] inside the accumulation loops is guarded by [seg_all]; the default is not reached *)
  Definition unwrap4 (o : option arr4) : arr4 :=
    match o with Some a => a | None => (n0, n0, n0, n0) end.

  (** parameters.rs 54-58 *)
  Definition seg_m (segments : list (pcsaft_record * T)) : T :=
    nsum (map (fun p => r_m (fst p) * snd p) segments).
  Definition seg_sigma3 (segments : list (pcsaft_record * T)) : T :=
    nsum (map (fun p => r_m (fst p) * (r_sigma (fst p)) ^ 3 * snd p) segments).
  Definition seg_eps (segments : list (pcsaft_record * T)) : T :=
    nsum (map (fun p => r_m (fst p) * r_epsilon_k (fst p) * snd p) segments).
  (** parameters.rs 111 *)
  Definition seg_nt (segments : list (pcsaft_record * T)) : T :=
    nsum (map snd segments).

  (** parameters.rs 112-120 and 136-137 (viscosity accumulation and Chapman-Enskog correction) *)
  Definition seg_viscosity (segments : list (pcsaft_record * T)) : option arr4 :=
    if seg_all r_viscosity segments then
      let sigma3 := seg_sigma3 segments in
      let s3 := fun p : pcsaft_record * T => r_m (fst p) * (r_sigma (fst p)) ^ 3 * snd p in
      let co := fun p : pcsaft_record * T => unwrap4 (r_viscosity (fst p)) in
      let v0 := nsum (map (fun p => let '(a, _, _, _) := co p in s3 p * a) segments) in
      let v1 := nsum (map (fun p => let '(_, b, _, _) := co p in s3 p * b / npowf sigma3 ($0.45)) segments) in
      let v2 := nsum (map (fun p => let '(_, _, c, _) := co p in snd p * c) segments) in
      let v3 := nsum (map (fun p => let '(_, _, _, d) := co p in snd p * d) segments) in
      Some (v0 - $0.5 * nln (seg_m segments), v1, v2, v3)
    else None.

  (** parameters.rs 94-101 and 121-127: note [n_t * d] in the last coefficient *)
  Definition seg_thermal (segments : list (pcsaft_record * T)) : option arr4 :=
    if seg_all r_thermal segments then
      let n_t := seg_nt segments in
      let co := fun p : pcsaft_record * T => unwrap4 (r_thermal (fst p)) in
      Some (nsum (map (fun p => let '(a, _, _, _) := co p in snd p * a) segments),
            nsum (map (fun p => let '(_, b, _, _) := co p in snd p * b) segments),
            nsum (map (fun p => let '(_, _, c, _) := co p in snd p * c) segments),
            nsum (map (fun p => let '(_, _, _, d) := co p in n_t * d) segments))
    else None.

  (** parameters.rs 102-109: the accumulation is commented out in the source, so the
      coefficients stay zero *)
  Definition seg_diffusion (segments : list (pcsaft_record * T)) : option arr5 :=
    if seg_all r_diffusion segments then Some (n0, n0, n0, n0, n0) else None.

  (** parameters.rs 48-154: FromSegments for PcSaftRecord *)
  Definition from_segments (segments : list (pcsaft_record * T)) : pcsaft_record :=
    let m := seg_m segments in
    {| r_m := m;
       r_sigma := ncbrt (seg_sigma3 segments / m);
       r_epsilon_k := seg_eps segments / m;
       r_mu := seg_opt r_mu segments;
       r_q := seg_opt r_q segments;
       r_kappa_ab := seg_opt r_kappa_ab segments;
       r_epsilon_k_ab := seg_opt r_epsilon_k_ab segments;
       r_na := seg_opt r_na segments;
       r_nb := seg_opt r_nb segments;
       r_viscosity := seg_viscosity segments;
       r_diffusion := seg_diffusion segments;
       r_thermal := seg_thermal segments |}.

  (** parameters.rs 235-240: FromSegmentsBinary; a PcSaftBinaryRecord is its k_ij *)
  Definition from_segments_binary (segments : list (T * T * T)) : T :=
    nsum (map (fun p => let '(k, n1, n2) := p in k * n1 * n2) segments).

  (** feos_core PureRecord (external crate): fields used by parameters.rs; the chemical record
      is not used there and is omitted *)
  Record pure_record := mkPure {
    pr_id : identifier; pr_molarweight : T; pr_model : pcsaft_record;
    pr_ideal_gas : option joback_record }.

  (** parameters.rs 243-274: struct PcSaftParameters *)
  Record params := mkParams {
    p_molarweight : list T; p_m : list T; p_sigma : list T; p_epsilon_k : list T;
    p_mu : list T; p_q : list T; p_mu2 : list T; p_q2 : list T;
    p_kappa_ab : list T; p_epsilon_k_ab : list T; p_na : list T; p_nb : list T;
    p_kappa_aibj : list (list T); p_epsilon_k_aibj : list (list T);
    p_k_ij : list (list T); p_sigma_ij : list (list T);
    p_epsilon_k_ij : list (list T); p_e_k_ij : list (list T);
    p_ndipole : nat; p_nquadpole : nat; p_nassoc : nat;
    p_dipole_comp : list nat; p_quadpole_comp : list nat; p_assoc_comp : list nat;
    p_viscosity : option (list (list T)); p_diffusion : option (list (list T));
    p_thermal : option (list (list T));
    p_pure_records : list pure_record; p_binary_records : list (list T);
    p_joback : option (list joback_record) }.

  Definition unwrap_or {A} (o : option A) (d : A) : A := match o with Some x => x | None => d end.

  (** quantity crate (external): KB = 1.380649e-23 J/K, [(JOULE / KELVIN / KB).into_value()] *)
  Definition kb_conv : T := $1 / $1.380649e-23.
  Definition e_m19 : T := $1e-19.

  (** parameters.rs 321-323 / 324-326 (element-wise) *)
  Definition mu2_of (mu m sigma eps : T) : T :=
    mu * mu / (m * sigma * sigma * sigma * eps) * e_m19 * kb_conv.
  Definition q2_of (q m sigma eps : T) : T :=
    q * q / (m * sigma ^ 5 * eps) * e_m19 * kb_conv.

  (** [enumerate().filter_map(|(i, &x)| (x.abs() > 0.0).then(|| i)).collect()],
      parameters.rs 327-343 *)
  Definition nonzero_comp (l : list T) : list nat :=
    filter (fun i => n0 <? nabs (ix l i)) (seq 0 (List.length l)).

  (** 370-399: None if any component lacks the coefficients, else the (rows x n) matrix with
      column i = coefficients of component i *)
  Definition coeff_matrix {A} (rows : nat) (to_list : A -> list T) (l : list (option A)) : option (list (list T)) :=
    if existsb (fun o => match o with None => true | Some _ => false end) l then None
    else Some (mk2 rows (List.length l)
           (fun r i => match nth i l None with Some a => ix (to_list a) r | None => n0 end)).

  (** [.map(|r| r.ideal_gas_record.clone()).collect::<Option<Vec<_>>>()], 401-404 *)
  Fixpoint collect_opt {A} (l : list (option A)) : option (list A) :=
    match l with
    | nil => Some nil
    | None :: _ => None
    | Some a :: l => match collect_opt l with Some r => Some (a :: r) | None => None end
    end.

  (** parameters.rs 281-438.  The write loops over the associating pairs (348-356) are
      expressed as one [from_shape_fn] with a membership test (assoc_comp has no duplicates). *)
  Definition from_records_raw (prs : list pure_record) (bin : list (list T)) : params :=
    let n := List.length prs in
    let rs := map pr_model prs in
    let m := map r_m rs in
    let sigma := map r_sigma rs in
    let epsilon_k := map r_epsilon_k rs in
    let mu := map (fun r => unwrap_or (r_mu r) n0) rs in
    let q := map (fun r => unwrap_or (r_q r) n0) rs in
    let na := map (fun r => unwrap_or (r_na r) n1) rs in
    let nb := map (fun r => unwrap_or (r_nb r) n1) rs in
    let kappa_ab := map (fun r => unwrap_or (r_kappa_ab r) n0) rs in
    let epsilon_k_ab := map (fun r => unwrap_or (r_epsilon_k_ab r) n0) rs in
    let mu2 := mk1 n (fun i => mu2_of (ix mu i) (ix m i) (ix sigma i) (ix epsilon_k i)) in
    let q2 := mk1 n (fun i => q2_of (ix q i) (ix m i) (ix sigma i) (ix epsilon_k i)) in
    let dipole_comp := nonzero_comp mu2 in
    let quadpole_comp := nonzero_comp q2 in
    let assoc_comp := nonzero_comp kappa_ab in
    let is_assoc := fun i => existsb (Nat.eqb i) assoc_comp in
    let k_ij := bin in
    {| p_molarweight := map pr_molarweight prs;
       p_m := m; p_sigma := sigma; p_epsilon_k := epsilon_k;
       p_mu := mu; p_q := q; p_mu2 := mu2; p_q2 := q2;
       p_kappa_ab := kappa_ab; p_epsilon_k_ab := epsilon_k_ab; p_na := na; p_nb := nb;
       p_kappa_aibj := mk2 n n (fun i j =>
         if is_assoc i && is_assoc j then
           nsqrt (ix kappa_ab i * ix kappa_ab j)
           * npowf ($2 * nsqrt (ix sigma i * ix sigma j) / (ix sigma i + ix sigma j)) ($3)
         else n0);
       p_epsilon_k_aibj := mk2 n n (fun i j =>
         if is_assoc i && is_assoc j then
           $0.5 * (ix epsilon_k_ab i + ix epsilon_k_ab j)
         else n0);
       p_k_ij := k_ij;
       p_sigma_ij := mk2 n n (fun i j => $0.5 * (ix sigma i + ix sigma j));
       p_epsilon_k_ij := mk2 n n (fun i j =>
         ($1 - ix2 k_ij i j) * nsqrt (ix epsilon_k i * ix epsilon_k j));
       p_e_k_ij := mk2 n n (fun i j => nsqrt (ix epsilon_k i * ix epsilon_k j));
       p_ndipole := List.length dipole_comp;
       p_nquadpole := List.length quadpole_comp;
       p_nassoc := List.length assoc_comp;
       p_dipole_comp := dipole_comp; p_quadpole_comp := quadpole_comp; p_assoc_comp := assoc_comp;
       p_viscosity := coeff_matrix 4 l4 (map r_viscosity rs);
       p_diffusion := coeff_matrix 5 l5 (map r_diffusion rs);
       p_thermal := coeff_matrix 4 l4 (map r_thermal rs);
       p_pure_records := prs; p_binary_records := bin;
       p_joback := collect_opt (map pr_ideal_gas prs) |}.

  (** [k_ij[[i, j]]] for i, j < n (line 365) panics iff the binary matrix is smaller than n x n;
      an Array2 is rectangular *)
  Definition binary_ok (n : nat) (bin : list (list T)) : bool :=
    Nat.leb n (List.length bin) && forallb (fun row => Nat.leb n (List.length row)) bin.

  (** None = panic (index out of bounds) *)
  Definition from_records (prs : list pure_record) (bin : list (list T)) : option params :=
    if binary_ok (List.length prs) bin then Some (from_records_raw prs bin) else None.

  (** parameters.rs 440-447 *)
  Definition records (p : params) : list pure_record * list (list T) :=
    (p_pure_records p, p_binary_records p).

  (** feos_core Parameter::subset (external default method): selects the records and rebuilds;
      an out-of-range index panics (None) *)
  Definition subset_records (prs : list pure_record) (l : list nat) : option (list pure_record) :=
    collect_opt (map (fun i => nth_error prs i) l).
  Definition subset_binary (bin : list (list T)) (l : list nat) : list (list T) :=
    map (fun i => map (fun j => ix2 bin i j) l) l.
  Definition subset (p : params) (l : list nat) : option params :=
    match subset_records (fst (records p)) l with
    | Some prs => from_records prs (subset_binary (snd (records p)) l)
    | None => None
    end.

  (** feos_core Parameter::new_pure / new_binary (external default methods) *)
  Definition new_pure (pr : pure_record) : option params := from_records [pr] [[n0]].
  Definition new_binary (pr1 pr2 : pure_record) (k : option T) : option params :=
    from_records [pr1; pr2] [[n0; unwrap_or k n0]; [unwrap_or k n0; n0]].
End Params.

Arguments joback_record : clear implicits.
Arguments pcsaft_record : clear implicits.
Arguments pure_record : clear implicits.
Arguments params : clear implicits.
Arguments arr4 : clear implicits.
Arguments arr5 : clear implicits.
