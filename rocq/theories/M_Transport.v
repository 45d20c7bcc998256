(** Model of the entropy-scaling part of src/eos/mod.rs (154-344) and of src/eos/qspr.rs.

    Quantities with units (crate quantity, external) are represented by their numerical value in
    SI base units; temperatures in K.  The unit bookkeeping itself ([into_value().unwrap()],
    [to_reduced]) is not modelled: all units match statically in these functions. *)
From Coq Require Import ZArith QArith List Bool.
From Verif Require Import Num Tables M_Params M_Eos.
Import ListNotations.
Local Open Scope num_scope.

Section Transport.
  Context {K : Num}.
  Notation T := (car K).
  Notation P := (params K).

  (** eos/mod.rs 154-159 *)
  Definition omega11 (t : T) : T :=
    $1.06036 * npowf t ($(-0.15610))
    + $0.19300 * nexp ($(-0.47635) * t)
    + $1.03587 * nexp ($(-1.52996) * t)
    + $1.76474 * nexp ($(-3.89411) * t).

  (** eos/mod.rs 161-164 *)
  Definition omega22 (t : T) : T :=
    $1.16145 * npowf t ($(-0.14874)) + $0.52487 * nexp ($(-0.77320) * t)
    + $2.16178 * nexp ($(-2.43787) * t)
    - $6.435e-4 * npowf t ($0.14874) * nsin ($18.0323 * npowf t ($(-0.76830)) - $7.27371).

  (** quantity::si constants (external): KB, NAV, RGAS = KB * NAV; GRAM/MOL = 1e-3 kg/mol;
      ANGSTROM = 1e-10 m *)
  Definition si_kb : T := $1.380649e-23.
  Definition si_nav : T := $6.02214076e23.
  Definition si_rgas : T := $8.31446261815324.
  Definition gram_per_mol : T := $1e-3.
  Definition angstrom : T := $1e-10.

  (** eos/mod.rs 167-181 (W/m/K); molar weight in g/mol *)
  Definition chapman_enskog_thermal_conductivity (t mw m sigma epsilon_k : T) : T :=
    $0.083235 * nsqrt (t * m / mw) / sigma ^ 2 / omega22 (t / epsilon_k).

  (** outcome of a transport property: value, error, or panic *)
  Inductive tres := TOk (v : T) | TErr (e : eos_err) | TPanic.

  (** eos/mod.rs 193-205 *)
  Definition visc_ce (p : P) (t : T) (i : nat) : T :=
    let tr := t / ix (p_epsilon_k p) i in
    $5 / $16
    * nsqrt (ix (p_molarweight p) i * gram_per_mol * si_kb / si_nav * t / npi)
    / omega22 tr / (ix (p_sigma p) i * angstrom) ^ 2.

  (** eos/mod.rs 206-218: Wilke mixing of arbitrary pure values [ce] with molar weights [mw] *)
  Definition wilke (n : nat) (ce mw x : nat -> T) : T :=
    nsumi n (fun i =>
      let denom := nsumi n (fun j =>
        x j * ($1 + nsqrt (ce i / ce j) * npowf (mw j / mw i) ($1 / $4)) ^ 2
        / nsqrt ($8 * ($1 + mw i / mw j))) in
      ce i * x i / denom).

  (** eos/mod.rs 184-220 *)
  Definition viscosity_reference (e : eos K) (t v : T) (moles : list T) : tres :=
    let p := e_params e in
    let total := nsum moles in
    TOk (wilke (components e) (visc_ce p t) (ix (p_molarweight p)) (fun i => ix moles i / total)).

  (** eos/mod.rs 222-236; [x * &m] element-wise, [row(k) * ..] element-wise *)
  Definition coeff_row (co : list (list T)) (k : nat) (n : nat) (w : nat -> T) : T :=
    nsumi n (fun i => ix2 co k i * w i).
  Definition viscosity_correlation (e : eos K) (s_res : T) (x : list T) : tres :=
    let p := e_params e in
    let n := length (p_m p) in
    match p_viscosity p with
    | None => TPanic
    | Some co =>
        let m := nsumi n (fun i => ix x i * ix (p_m p) i) in
        let s := s_res / m in
        let pref := fun i => ix x i * ix (p_m p) i / m in
        let a := coeff_row co 0 n (ix x) in
        let b := coeff_row co 1 n pref in
        let c := coeff_row co 2 n pref in
        let d := coeff_row co 3 n pref in
        TOk (a + b * s + c * s ^ 2 + d * s ^ 3)
    end.

  (** eos/mod.rs 238-261 *)
  Definition diffusion_reference (e : eos K) (t v : T) (moles : list T) : tres :=
    if negb (Nat.eqb (components e) 1) then TErr (IncompatibleComponents (components e) 1)
    else
      let p := e_params e in
      let density := nsum moles / v in
      let tr := t / ix (p_epsilon_k p) 0 in
      TOk ($3 / $8 / (ix (p_sigma p) 0 * angstrom) ^ 2 / omega11 tr / (density * si_nav)
           * nsqrt (t * si_rgas / npi / (ix (p_molarweight p) 0 * gram_per_mol))).

  (** eos/mod.rs 263-281 *)
  Definition diffusion_correlation (e : eos K) (s_res : T) (x : list T) : tres :=
    if negb (Nat.eqb (components e) 1) then TErr (IncompatibleComponents (components e) 1)
    else
      let p := e_params e in
      let n := length (p_m p) in
      match p_diffusion p with
      | None => TPanic
      | Some co =>
          let m := nsumi n (fun i => ix x i * ix (p_m p) i) in
          let s := s_res / m in
          let pref := fun i => ix x i * ix (p_m p) i / m in
          let a := coeff_row co 0 n (ix x) in
          let b := coeff_row co 1 n pref in
          let c := coeff_row co 2 n pref in
          let d := coeff_row co 3 n pref in
          let e := coeff_row co 4 n pref in
          TOk (a + b * s - c * ($1 - nexp s) * s ^ 2 - d * s ^ 4 - e * s ^ 8)
      end.

  (** eos/mod.rs 284-324.  [entropy] stands for [State::new_nvt(..)?.molar_entropy(ResidualNvt)]
      reduced by R (external; a function of the equation of state built at line 295 and of the
      state), [None] = [new_nvt] returned an error. *)
  Definition thermal_conductivity_reference
      (entropy : eos K -> T -> T -> list T -> option T)
      (e : eos K) (t v : T) (moles : list T) : tres :=
    if negb (Nat.eqb (components e) 1) then TErr (IncompatibleComponents (components e) 1)
    else
      let p := e_params e in
      match entropy (eos_new p) t v moles with
      | None => TErr IterationFailed
      | Some s =>
          let m := ix (p_m p) 0 in
          let sigma := ix (p_sigma p) 0 in
          let eps := ix (p_epsilon_k p) 0 in
          let tr := t / eps in
          let s_red := s / m in
          let ref_ce := chapman_enskog_thermal_conductivity t (ix (p_molarweight p) 0) m sigma eps in
          let alpha_visc := nexp (- s_red / $(-0.5)) in
          let ref_ts := ($(-0.0167141) * tr / m + $0.0470581 * (tr / m) ^ 2)
                        * (m * m * sigma ^ 3 * eps) * $1e-5 in
          TOk (ref_ce + ref_ts * alpha_visc)
      end.

  (** eos/mod.rs 326-343 *)
  Definition thermal_conductivity_correlation (e : eos K) (s_res : T) (x : list T) : tres :=
    if negb (Nat.eqb (components e) 1) then TErr (IncompatibleComponents (components e) 1)
    else
      let p := e_params e in
      let n := length (p_m p) in
      match p_thermal p with
      | None => TPanic
      | Some co =>
          let m := nsumi n (fun i => ix x i * ix (p_m p) i) in
          let s := s_res / m in
          let pref := fun i => ix x i * ix (p_m p) i / m in
          let a := coeff_row co 0 n (ix x) in
          let b := coeff_row co 1 n pref in
          let c := coeff_row co 2 n pref in
          let d := coeff_row co 3 n pref in
          TOk (a + b * s + c * ($1 - nexp s) + d * s ^ 2)
      end.

  (** eos/mod.rs 148-152 (kg/mol) *)
  Definition molar_weight (e : eos K) : list T :=
    map (fun m => m * gram_per_mol) (p_molarweight (e_params e)).

  (* ------------------------------------------------------------------------ qspr.rs *)

  (** qspr.rs 8-14 *)
  Definition q_rgas : T := $6.022140857 * $1.38064852.
  Definition q_kb : T := $1.38064852e-23.
  Definition q_t300 : T := $300.
  Definition q_t400 : T := $400.
  Definition q_t0 : T := $298.15.
  Definition q_p0 : T := $1.0e5.
  Definition q_a3 : T := $1e-30.

  (** qspr.rs 73-79 *)
  Definition qspr_coeffs (p : P) : list Q * list Q :=
    match p_nassoc p with
    | O => match (p_ndipole p + p_nquadpole p)%nat with
           | O => (NA_NP_300, NA_NP_400)
           | _ => (NA_P_300, NA_P_400)
           end
    | _ => (AP_300, AP_400)
    end.

  (** qspr.rs 95-101 / 102-108 *)
  Definition qspr_icpc (c : list Q) (tref p1 p2 p3 p4 p5 p6 : T) : T :=
    (p1 * cst c 0 / tref + p2 * cst c 1 + p3 * cst c 2 / tref + p4 * cst c 3 / tref
     + p5 * cst c 4 + p6 * cst c 5) * $0.001.

  (** qspr.rs 82-119 for component i *)
  Definition qspr_lambda (p : P) (t : T) (i : nat) : T :=
    let (c_300, c_400) := qspr_coeffs p in
    let epsilon_kt := nrecip t * ix (p_epsilon_k p) i in
    let sigma3 := (ix (p_sigma p) i) ^ 3 in
    let p1 := epsilon_kt * ix (p_m p) i in
    let p2 := sigma3 * ix (p_m p) i in
    let p3 := epsilon_kt * p2 in
    let p4 := nexpm1 (nrecip t * ix (p_epsilon_k_ab p) i) * p2 * sigma3 * ix (p_kappa_ab p) i in
    let p5 := p2 * ix (p_q p) i in
    let p6 := $1 in
    let icpc300 := qspr_icpc c_300 q_t300 p1 p2 p3 p4 p5 p6 in
    let icpc400 := qspr_icpc c_400 q_t400 p1 p2 p3 p4 p5 p6 in
    let b := (icpc400 - icpc300) / (q_t400 - q_t300) in
    let a := icpc300 - b * q_t300 in
    let k := a * (t - q_t0 - t * nln (t / q_t0)) - b * (t - q_t0) ^ 2 * $0.5 in
    k / (t * q_rgas) + nln (t * q_kb / (q_p0 * q_a3)).

  (** qspr.rs 72-121 *)
  Definition de_broglie_wavelength (p : P) (t : T) (components : nat) : list T :=
    mk1 components (qspr_lambda p t).
End Transport.
Arguments tres : clear implicits.
