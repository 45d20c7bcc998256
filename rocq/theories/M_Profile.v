(** Weighted densities at one point of a density profile (feos_dft, external crate).

    [local i] is the density of component i at the point; [conv s r i k] is the value at the
    point of the density of component i convolved with the weight function of shape s and radius
    r (for the vector shape: its component in direction k).  Both are arbitrary functions in the
    theorems, so the theorems hold for every density profile, every geometry and every way of
    computing the convolutions. *)
From Coq Require Import ZArith QArith List Bool.
From Verif Require Import Num Tables M_Params M_Eos M_Dft.
Import ListNotations.
Local Open Scope num_scope.

Section Profile.
  Context {K : Num}.
  Notation T := (car K).

  (** row order of feos_dft as in M_Dft.bulk_wd: local densities, component scalars, component
      vectors, FMT scalars, FMT vectors *)
  Definition profile_wd (wi : weight_info K) (n dim : nat) (local : nat -> T)
      (conv : wf_shape -> T -> nat -> nat -> T) : list T :=
    let row (w : weight_function K) (i k : nat) :=
      ix (wf_prefactor w) i * conv (wf_sh w) (ix (wf_radius w) i) i k in
    (if wi_local wi then mk1 n local else [])
    ++ flat_map (fun w => mk1 n (fun i => row w i 0%nat)) (filter (fun w => negb (is_vec w)) (wi_comp wi))
    ++ flat_map (fun w => flat_map (fun k => mk1 n (fun i => row w i k)) (seq 0 dim))
         (filter is_vec (wi_comp wi))
    ++ map (fun w => nsumi n (fun i => row w i 0%nat)) (filter (fun w => negb (is_vec w)) (wi_fmt wi))
    ++ flat_map (fun w => map (fun k => nsumi n (fun i => row w i k)) (seq 0 dim))
         (filter is_vec (wi_fmt wi)).

  (** Weight functions of a contribution: the trait methods [weight_functions] (functional) and
      [weight_functions_pdgt] (square-gradient approximation; overridden only by the attraction
      terms, dft/dispersion.rs 43-49 and dft/pure_saft_functional.rs 214-231, otherwise the
      default of feos_dft, which is [weight_functions]).  None: external crate. *)
  Definition contribution_weights (pdgt : bool) (p : params K) (t : T) (c : fcontribution K) : option (weight_info K) :=
    let psi := if pdgt then psi_pdgt else psi_dft in
    match c with
    | FPureFmtAssoc _ => Some (pure_fmt_weight_functions p t)
    | FPureChain => Some (pure_chain_weight_functions p t)
    | FPureAtt => Some (att_weight_functions psi p t)
    | FFmt _ => None
    | FChain => Some (chain_weight_functions p t)
    | FAtt => Some (att_weight_functions psi p t)
    | FAssoc _ _ => Some (assoc_weight_functions p t)
    end.

  (** [calculate_helmholtz_energy_density] of a contribution for one grid point with the given
      weighted densities; None = error, panic or external crate *)
  Definition contribution_density (lu : lu_solver K) (p : params K) (t : T) (wd : list T) (c : fcontribution K) : option T :=
    match c with
    | FPureFmtAssoc v => match phi_pure_fmt_assoc v p t [wd] with Value (Ok [phi]) => Some phi | _ => None end
    | FPureChain => Some (phi_pure_chain p wd)
    | FPureAtt => Some (phi_pure_att p t wd)
    | FFmt _ => None
    | FChain => Some (phi_chain p t wd)
    | FAtt => Some (phi_att p t wd)
    | FAssoc k tol => match phi_assoc lu k tol p t [wd] with Ok [phi] => Some phi | _ => None end
    end.
  Definition point_contribution (pdgt : bool) (lu : lu_solver K) (p : params K) (t : T) (dim : nat)
      (local : nat -> T) (conv : wf_shape -> T -> nat -> nat -> T) (c : fcontribution K) : option T :=
    match contribution_weights pdgt p t c with
    | Some wi => contribution_density lu p t (profile_wd wi (List.length (p_m p)) dim local conv) c
    | None => None
    end.
End Profile.
