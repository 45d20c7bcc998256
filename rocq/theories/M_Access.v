(** Data that the equation of state and the functional report to feos_core and feos_dft:
    molar weights, fluid parameters, shape of the molecules, ideal-gas term. *)
From Coq Require Import ZArith QArith List.
From Verif Require Import Num M_Params M_Eos M_Dft M_Transport.
Import ListNotations.
Local Open Scope num_scope.

Section Access.
  Context {K : Num}.
  Notation T := (car K).

  (** dft/mod.rs 135-139 (kg/mol); the equation of state's is [M_Transport.molar_weight] *)
  Definition f_molar_weight (f : functional K) : list T :=
    map (fun m => m * gram_per_mol) (p_molarweight (f_params f)).
  (** dft/mod.rs 155-163, FluidParameters *)
  Definition f_epsilon_k_ff (f : functional K) : list T := p_epsilon_k (f_params f).
  Definition f_sigma_ff (f : functional K) : list T := p_sigma (f_params f).
  (** dft/mod.rs 141-149, FMTProperties of the parameters *)
  Definition fmt_component_index (p : params K) : list nat := seq 0 (length (p_m p)).
  Definition fmt_chain_length (p : params K) : list T := p_m p.
  (** dft/mod.rs 130-132, NonSpherical(m) *)
  Definition f_molecule_shape (f : functional K) : list T := p_m (f_params f).

  (** feos_core::joback::Joback (external, not in /repo): logarithm of the cubed de Broglie
      wavelength from a heat capacity a + b T + c T^2 + d T^3 + e T^4, zero enthalpy and entropy at
      298.15 K and 1 bar.  Part of the trusted base where a theorem mentions it. *)
  Definition ext_joback (j : joback_record K) (t : T) : T :=
    let t0 := q_t0 in
    let h := jb_a j * (t - t0) + jb_b j * (t ^ 2 - t0 ^ 2) / $2 + jb_c j * (t ^ 3 - t0 ^ 3) / $3
             + jb_d j * (t ^ 4 - t0 ^ 4) / $4 + jb_e j * (t ^ 5 - t0 ^ 5) / $5 in
    let s := jb_a j * nln (t / t0) + jb_b j * (t - t0) + jb_c j * (t ^ 2 - t0 ^ 2) / $2
             + jb_d j * (t ^ 3 - t0 ^ 3) / $3 + jb_e j * (t ^ 4 - t0 ^ 4) / $4 in
    (h - t * s) / (t * q_rgas) + nln (t * q_kb / (q_p0 * q_a3)).
  (** Joback::default(n) (external): all coefficients zero *)
  Definition ext_joback_zero : joback_record K := mkJoback n0 n0 n0 n0 n0.

  (** eos/mod.rs 140-145: one term per component *)
  Definition e_ideal_gas_term (e : eos K) (t : T) : list T :=
    match e_ideal_gas e with
    | IG_QSPR => de_broglie_wavelength (e_params e) t (components e)
    | IG_Joback l => map (fun j => ext_joback j t) l
    end.
  (** dft/mod.rs 91-94 and 126-128 *)
  Definition f_ideal_gas_term (f : functional K) (t : T) : list T :=
    match f_joback f with
    | JRecords l => map (fun j => ext_joback j t) l
    | JDefault n => repeat (ext_joback ext_joback_zero t) n
    end.
End Access.
