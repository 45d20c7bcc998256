(** Model of src/dft/*.rs: Helmholtz energy functional.

    All functionals except the guard of the pure FMT functional and the cross-association loop
    act point by point on a profile; they are modelled as functions of the weighted densities at
    one grid point, the two exceptions as functions of the whole profile. *)
From Coq Require Import ZArith QArith List Bool.
From Verif Require Import Num Tables M_Params M_Eos.
Import ListNotations.
Local Open Scope num_scope.

Section Dft.
  Context {K : Num}.
  Notation T := (car K).
  Notation P := (params K).

  (* ------------------------------------------------ weight functions (feos_dft, external) *)

  (** feos_dft::WeightFunctionShape (external; the shapes used by this crate) *)
  Inductive wf_shape := Delta | Theta | DeltaVec.

  (** feos_dft::WeightFunction / WeightFunctionInfo (external).  [wi_local] = the local density
      is part of the weighted densities; [wi_comp] / [wi_fmt] = functions added with
      fmt = false / true. *)
  Record weight_function := mkWF { wf_prefactor : list T; wf_radius : list T; wf_sh : wf_shape }.
  Record weight_info := mkWI {
    wi_local : bool; wi_comp : list weight_function; wi_fmt : list weight_function }.

  (** integral of a weight function over space (k -> 0 of its Fourier transform):
      4 pi r^2 for the delta shell, 4/3 pi r^3 for the ball, 0 for the vector shell *)
  Definition shape_integral (s : wf_shape) (r : T) : T :=
    match s with
    | Delta => r * r * $4 * npi
    | Theta => r * r * r * $4 * frac_pi_3
    | DeltaVec => n0
    end.

  (** WeightFunction::new_scaled (external): normalised weight function *)
  Definition wf_scaled (radius : list T) (s : wf_shape) : weight_function :=
    {| wf_prefactor := map (fun r => nrecip (shape_integral s r)) radius;
       wf_radius := radius; wf_sh := s |}.

  Definition is_vec (w : weight_function) : bool :=
    match wf_sh w with DeltaVec => true | _ => false end.

  (** weighted densities of component i in a uniform fluid *)
  Definition bulk_weight (w : weight_function) (i : nat) : T :=
    ix (wf_prefactor w) i * shape_integral (wf_sh w) (ix (wf_radius w) i).

  (** weighted densities of a uniform fluid, in the row order of feos_dft: local densities,
      component scalars, component vectors ([dim] directions), FMT scalars, FMT vectors *)
  Definition bulk_wd (wi : weight_info) (dim : nat) (rho : list T) : list T :=
    let n := length rho in
    (if wi_local wi then rho else [])
    ++ flat_map (fun w => mk1 n (fun i => bulk_weight w i * ix rho i))
         (filter (fun w => negb (is_vec w)) (wi_comp wi))
    ++ flat_map (fun w => flat_map (fun _ => mk1 n (fun i => bulk_weight w i * ix rho i)) (seq 0 dim))
         (filter is_vec (wi_comp wi))
    ++ map (fun w => nsumi n (fun i => bulk_weight w i * ix rho i))
         (filter (fun w => negb (is_vec w)) (wi_fmt wi))
    ++ flat_map (fun w => map (fun _ => nsumi n (fun i => bulk_weight w i * ix rho i)) (seq 0 dim))
         (filter is_vec (wi_fmt wi)).

  (** outcome of a functional: result, or a panic *)
  Inductive outcome (A : Type) := Value (r : res A) | Panic.
  Arguments Value {A}. Arguments Panic {A}.

  (* ------------------------------------------------------------------ dft/hard_chain.rs *)

  (** dft/hard_chain.rs 12-42 with lambda = true (line 57) *)
  Definition chain_weight_functions (p : P) (t : T) : weight_info :=
    let d := hs_diameter p t in
    {| wi_local := true;
       wi_comp := [wf_scaled d Delta];
       wi_fmt := [ {| wf_prefactor := mk1 (length d) (fun i => ix (p_m p) i / (ix d i * $8));
                      wf_radius := d; wf_sh := Theta |};
                   {| wf_prefactor := map (fun m => m / $8) (p_m p);
                      wf_radius := d; wf_sh := Theta |} ] |}.

  (** dft/hard_chain.rs 74: |lambda| + eps *)
  Definition lambda_reg (l : T) : T := (if l <? n0 then - l else l) + f_eps.

  (** dft/hard_chain.rs 85-86 *)
  Definition chain_yi (di z2 z3i : T) : T :=
    let z2d := z2 * di in
    z2d * z3i * z3i * (z2d * z3i * $0.5 + $1.5) + z3i.

  (** dft/hard_chain.rs 60-92 at one grid point *)
  Definition phi_chain (p : P) (t : T) (wd : list T) : T :=
    let n := Nat.div (length wd - 2) 2 in
    let d := hs_diameter p t in
    let zeta2 := ix wd (2 * n)%nat in
    let zeta3 := ix wd (2 * n + 1)%nat in
    let z3i := nrecip (- zeta3 + $1) in
    nsubs (mk1 n (fun i =>
      let lambdai := lambda_reg (ix wd (n + i)%nat) in
      let yi := chain_yi (ix d i) zeta2 z3i in
      (nln (yi * lambdai) - $1) * ix wd i * (ix (p_m p) i - $1))).

  (* ------------------------------------------------------------------ dft/dispersion.rs *)

  (** dft/dispersion.rs 14-17 (PSI_DFT, PSI_PDGT) and 30-40, 43-49 *)
  Definition psi_dft : T := $1.3862.
  Definition psi_pdgt : T := $1.3286.
  Definition att_weight_functions (psi : T) (p : P) (t : T) : weight_info :=
    {| wi_local := false;
       wi_comp := [wf_scaled (map (fun d => d * psi) (hs_diameter p t)) Theta];
       wi_fmt := [] |}.

  (** dft/dispersion.rs 64-70, dft/polar.rs 19-25 *)
  Definition att_eta (p : P) (t : T) (rho : list T) : T :=
    let r := seg_radius p t in
    nsumi (length (p_m p)) (fun i =>
      ix rho i * (ix r i * ix r i * ix r i * ix (p_m p) i * $4 * frac_pi_3)).

  (** dft/dispersion.rs 73-85 *)
  Definition att_m_bar (p : P) (rho : list T) : T :=
    let n := length (p_m p) in
    let rhog := nsumi n (fun i => ix rho i) in
    if f_eps <? rhog then nsumi n (fun i => ix rho i * ix (p_m p) i) / rhog else n1.

  (** dft/dispersion.rs 88-101 *)
  Definition att_rho1mix (p : P) (t : T) (rho : list T) : T :=
    let n := length (p_m p) in
    nsum (flat_map (fun i => mk1 n (fun j =>
      let eps := nrecip t * ix2 (p_epsilon_k_ij p) i j in
      let s3 := (ix2 (p_sigma_ij p) i j) ^ 3 in
      ix rho i * ix rho j * (eps * s3 * ix (p_m p) i * ix (p_m p) j))) (seq 0 n)).
  Definition att_rho2mix (p : P) (t : T) (rho : list T) : T :=
    let n := length (p_m p) in
    nsum (flat_map (fun i => mk1 n (fun j =>
      let eps := nrecip t * ix2 (p_epsilon_k_ij p) i j in
      let s3 := (ix2 (p_sigma_ij p) i j) ^ 3 in
      ix rho i * ix rho j * (eps * eps * s3 * ix (p_m p) i * ix (p_m p) j))) (seq 0 n)).

  (** dft/dispersion.rs 104-113 *)
  Definition att_series (c0 c1 c2 : list Q) (m eta : T) : T :=
    let m1 := (m - $1) / m in
    let m2 := (m - $2) / m * m1 in
    nsumi 7 (fun i => (m2 * cst c2 i + m1 * cst c1 i + cst c0 i) * run_pow eta i).

  (** dft/dispersion.rs 114-121 *)
  Definition att_c1 (m eta : T) : T :=
    nrecip (m * (eta * $8 - eta ^ 2 * $2) / (eta - $1) ^ 4
      + (eta * (eta * (eta * (eta * $2 - $12) + $27) - $20))
        / ((eta - $1) * (eta - $2)) ^ 2 * (m - $1)
      + $1).

  (* ----------------------------------------------------------------------- dft/polar.rs *)

  (** dft/polar.rs 40-65 (at one grid point; [integral +=] loop) *)
  Definition d_pair_integral_ij (mij1 mij2 eta : T) (a b : list (list Q)) (eps_ij_t : T) : T :=
    nsumi (length a) (fun i =>
      etas eta i
      * (eps_ij_t * (cst2 b i 0 + mij1 * cst2 b i 1 + mij2 * cst2 b i 2)
         + cst2 a i 0 + mij1 * cst2 a i 1 + mij2 * cst2 a i 2)).
  (** dft/polar.rs 67-80 *)
  Definition d_triplet_integral_ijk (mijk1 mijk2 eta : T) (c : list (list Q)) : T :=
    nsumi (length c) (fun i =>
      etas eta i * (cst2 c i 0 + mijk1 * cst2 c i 1 + mijk2 * cst2 c i 2)).
  (** dft/polar.rs 82-93 *)
  Definition d_triplet_integral_ijk_dq (mijk eta : T) (c : list (list Q)) : T :=
    nsumi (length c) (fun i => etas eta i * (cst2 c i 0 + mijk * cst2 c i 1)).

  (** dft/polar.rs 174-179, 262-267, 362-367 *)
  Definition d_pade (phi2 phi3 : T) : T :=
    let result := phi2 * phi2 / (phi2 - phi3) in
    if nisnan result then phi2 else result.

  (** dft/polar.rs 95-181 *)
  Definition d_dipole_phi2 (p : P) (t : T) (rho : list T) (eta : T) : T :=
    let t_inv := nrecip t in
    let e := fun i j => t_inv * ix2 (p_e_k_ij p) i j in
    let s3 := fun i j => (ix2 (p_sigma_ij p) i j) ^ 3 in
    let mu := fun c => e c c * s3 c c * ix (p_mu2 p) c in
    let dc := ixn (p_dipole_comp p) in
    nsubs (tri2 (p_ndipole p)
      (fun i => let di := dc i in
         ix rho di * ix rho di
         * d_pair_integral_ij (frac1 (mcap p di)) (frac2 (mcap p di)) eta AD BD (e di di)
         * (mu di * mu di / s3 di di))
      (fun i j => let di := dc i in let dj := dc j in
         ix rho di * ix rho dj
         * d_pair_integral_ij (frac1 (mseg2 p di dj)) (frac2 (mseg2 p di dj)) eta AD BD (e di dj)
         * (mu di * mu dj / s3 di dj * $2)))
    * npi.
  Definition d_dipole_phi3 (p : P) (t : T) (rho : list T) (eta : T) : T :=
    let t_inv := nrecip t in
    let e := fun i j => t_inv * ix2 (p_e_k_ij p) i j in
    let sg := ix2 (p_sigma_ij p) in
    let s3 := fun i j => (ix2 (p_sigma_ij p) i j) ^ 3 in
    let mu := fun c => e c c * s3 c c * ix (p_mu2 p) c in
    let dc := ixn (p_dipole_comp p) in
    nsubs (tri3 (p_ndipole p)
      (fun i => let di := dc i in
         ix rho di * ix rho di * ix rho di
         * d_triplet_integral_ijk (frac1 (mcap p di)) (frac2 (mcap p di)) eta CD
         * (mu di * mu di * mu di / s3 di di))
      (fun i j => let di := dc i in let dj := dc j in
         ix rho di * ix rho di * ix rho dj
         * d_triplet_integral_ijk (frac1 (mseg3 p di di dj)) (frac2 (mseg3 p di di dj)) eta CD
         * (mu di * mu di * mu dj / (sg di di * sg di dj * sg di dj) * $3))
      (fun i j => let di := dc i in let dj := dc j in
         ix rho di * ix rho dj * ix rho dj
         * d_triplet_integral_ijk (frac1 (mseg3 p di dj dj)) (frac2 (mseg3 p di dj dj)) eta CD
         * (mu di * mu dj * mu dj / (sg di dj * sg di dj * sg dj dj) * $3))
      (fun i j k => let di := dc i in let dj := dc j in let dk := dc k in
         ix rho di * ix rho dj * ix rho dk
         * d_triplet_integral_ijk (frac1 (mseg3 p di dj dk)) (frac2 (mseg3 p di dj dk)) eta CD
         * (mu di * mu dj * mu dk / (sg di dj * sg di dk * sg dj dk) * $6)))
    * pi_sq_43.

  (** dft/polar.rs 183-269.  Line 233 uses [sigma_ij[[di, dj]]] and has no factor 2. *)
  Definition d_quad_phi2 (p : P) (t : T) (rho : list T) (eta : T) : T :=
    let t_inv := nrecip t in
    let e := fun i j => t_inv * ix2 (p_e_k_ij p) i j in
    let sg := ix2 (p_sigma_ij p) in
    let q := fun c => e c c * (ix (p_sigma p) c) ^ 5 * ix (p_q2 p) c in
    let dc := ixn (p_quadpole_comp p) in
    nsubs (tri2 (p_nquadpole p)
      (fun i => let di := dc i in
         ix rho di * ix rho di
         * d_pair_integral_ij (frac1 (mcap p di)) (frac2 (mcap p di)) eta AQ BQ (e di di)
         * (q di * q di / (sg di di) ^ 7))
      (fun i j => let di := dc i in let dj := dc j in
         ix rho di * ix rho dj
         * d_pair_integral_ij (frac1 (mseg2 p di dj)) (frac2 (mseg2 p di dj)) eta AQ BQ (e di dj)
         * (q di * q dj / (sg di dj) ^ 7)))
    * (npi * $0.5625).
  Definition d_quad_phi3 (p : P) (t : T) (rho : list T) (eta : T) : T :=
    let t_inv := nrecip t in
    let e := fun i j => t_inv * ix2 (p_e_k_ij p) i j in
    let s3 := fun i j => (ix2 (p_sigma_ij p) i j) ^ 3 in
    let q := fun c => e c c * (ix (p_sigma p) c) ^ 5 * ix (p_q2 p) c in
    let dc := ixn (p_quadpole_comp p) in
    nsum (tri3 (p_nquadpole p)
      (fun i => let di := dc i in
         ix rho di * ix rho di * ix rho di
         * d_triplet_integral_ijk (frac1 (mcap p di)) (frac2 (mcap p di)) eta CQ
         * (q di * q di * q di / (s3 di di) ^ 3))
      (fun i j => let di := dc i in let dj := dc j in
         ix rho di * ix rho di * ix rho dj
         * d_triplet_integral_ijk (frac1 (mseg3 p di di dj)) (frac2 (mseg3 p di di dj)) eta CQ
         * (q di * q di * q dj / (s3 di di * s3 di dj * s3 di dj) * $3))
      (fun i j => let di := dc i in let dj := dc j in
         ix rho di * ix rho dj * ix rho dj
         * d_triplet_integral_ijk (frac1 (mseg3 p di dj dj)) (frac2 (mseg3 p di dj dj)) eta CQ
         * (q di * q dj * q dj / (s3 di dj * s3 di dj * s3 dj dj) * $3))
      (fun i j k => let di := dc i in let dj := dc j in let dk := dc k in
         ix rho di * ix rho dj * ix rho dk
         * d_triplet_integral_ijk (frac1 (mseg3 p di dj dk)) (frac2 (mseg3 p di dj dk)) eta CQ
         * (q di * q dj * q dk / (s3 di dj * s3 di dk * s3 dj dk) * $6)))
    * (npi * npi * $0.5625).

  (** dft/polar.rs 271-369 *)
  Definition d_dq_phi2 (p : P) (t : T) (rho : list T) (eta : T) : T :=
    let t_inv := nrecip t in
    let e := fun i j => t_inv * ix2 (p_e_k_ij p) i j in
    let sg := ix2 (p_sigma_ij p) in
    let s := ix (p_sigma p) in
    let mu := fun c => e c c * (s c) ^ 4 * ix (p_mu2 p) c in
    let q := fun c => e c c * (s c) ^ 4 * ix (p_q2 p) c in
    let dc := ixn (p_dipole_comp p) in
    let qc := ixn (p_quadpole_comp p) in
    nsubs (flat_map (fun i => mk1 (p_nquadpole p) (fun j =>
        let di := dc i in let qj := qc j in
        ix rho di * ix rho qj
        * d_pair_integral_ij (frac1 (mseg2 p di qj)) (frac2 (mseg2 p di qj)) eta ADQ BDQ (e di qj)
        * (mu di / s di * q qj * s qj / (sg di qj) ^ 5)))
      (seq 0 (p_ndipole p)))
    * (npi * $2.25).
  Definition d_dq_phi3 (p : P) (t : T) (rho : list T) (eta : T) : T :=
    let t_inv := nrecip t in
    let e := fun i j => t_inv * ix2 (p_e_k_ij p) i j in
    let sg := ix2 (p_sigma_ij p) in
    let s := ix (p_sigma p) in
    let mu := fun c => e c c * (s c) ^ 4 * ix (p_mu2 p) c in
    let q := fun c => e c c * (s c) ^ 4 * ix (p_q2 p) c in
    let dc := ixn (p_dipole_comp p) in
    let qc := ixn (p_quadpole_comp p) in
    nsum (flat_map (fun i => flat_map (fun j =>
        let di := dc i in let qj := qc j in
        mk1 (p_ndipole p) (fun k => let dk := dc k in
          ix rho di * ix rho qj * ix rho dk
          * d_triplet_integral_ijk_dq (frac1 (mseg3 p di qj dk)) eta CDQ
          * (mu di * q qj * mu dk / (sg di qj * sg di dk * sg qj dk) ^ 2))
        ++ mk1 (p_nquadpole p) (fun k => let qk := qc k in
          ix rho di * ix rho qj * ix rho qk
          * d_triplet_integral_ijk_dq (frac1 (mseg3 p di qj qk)) eta CDQ
          * (mu di * q qj * q qk / (sg di qj * sg di qk * sg qj qk) ^ 2 * nlit ALPHA)))
        (seq 0 (p_nquadpole p)))
      (seq 0 (p_ndipole p)))
    * (npi * npi).

  (** dft/polar.rs 10-38 *)
  Definition phi_polar (p : P) (t : T) (rho : list T) : T :=
    let eta := att_eta p t rho in
    nsum ((if Nat.ltb 0 (p_ndipole p)
           then [d_pade (d_dipole_phi2 p t rho eta) (d_dipole_phi3 p t rho eta)] else [])
       ++ (if Nat.ltb 0 (p_nquadpole p)
           then [d_pade (d_quad_phi2 p t rho eta) (d_quad_phi3 p t rho eta)] else [])
       ++ (if Nat.ltb 0 (p_ndipole p) && Nat.ltb 0 (p_nquadpole p)
           then [d_pade (d_dq_phi2 p t rho eta) (d_dq_phi3 p t rho eta)] else [])).

  (** dft/dispersion.rs 51-126 (without the polar part) *)
  Definition phi_att_disp (p : P) (t : T) (rho : list T) : T :=
    let eta := att_eta p t rho in
    let m := att_m_bar p rho in
    let i1 := att_series A0 A1 A2 m eta in
    let i2 := att_series B0 B1 B2 m eta in
    let c1 := att_c1 m eta in
    (- att_rho1mix p t rho * i1 * $2 - att_rho2mix p t rho * m * c1 * i2) * npi.
  Definition phi_att (p : P) (t : T) (rho : list T) : T :=
    phi_att_disp p t rho + phi_polar p t rho.

  (* ----------------------------------------------------------------- dft/association.rs *)

  (** dft/association.rs 15 *)
  Definition n0_cutoff : T := $1e-9.

  (** dft/association.rs 38-62 *)
  Definition assoc_weight_functions (p : P) (t : T) : weight_info :=
    let r := seg_radius p t in
    {| wi_local := false;
       wi_comp := [wf_scaled r Delta; {| wf_prefactor := p_m p; wf_radius := r; wf_sh := DeltaVec |}];
       wi_fmt := [{| wf_prefactor := p_m p; wf_radius := r; wf_sh := Theta |}] |}.

  (** the quantities computed from the weighted densities at one grid point,
      dft/association.rs 71-126: rho0, n2, n3i, xi *)
  Definition da_dim (p : P) (wd : list T) : nat :=
    (Nat.div (length wd - 1) (length (p_m p)) - 1)%nat.
  Definition da_n0i (p : P) (wd : list T) (i : nat) : T := ix wd i.
  Definition da_n2vi (p : P) (wd : list T) (k i : nat) : T :=
    ix wd (length (p_m p) * (k + 1) + i)%nat.
  Definition da_n3 (p : P) (wd : list T) : T :=
    ix wd (length (p_m p) * (da_dim p wd + 1))%nat.
  Definition da_n2i (p : P) (t : T) (wd : list T) (i : nat) : T :=
    da_n0i p wd i * ((ix (seg_radius p t) i) ^ 2 * (ix (p_m p) i * $4 * npi)).
  Definition da_rho0 (p : P) (t : T) (wd : list T) : list T :=
    mk1 (length (p_m p)) (fun i =>
      let n0i := da_n0i p wd i in
      let n2i := da_n2i p t wd i in
      if n0i <? n0_cutoff then n0i
      else (nsumi (da_dim p wd) (fun k => da_n2vi p wd k i * da_n2vi p wd k i) / - (n2i * n2i) + $1)
           * n0i).
  Definition da_n2 (p : P) (t : T) (wd : list T) : T :=
    nsumi (length (p_m p)) (fun i => da_n2i p t wd i).
  Definition da_xi (p : P) (t : T) (wd : list T) : T :=
    let n := length (p_m p) in
    let n2 := da_n2 p t wd in
    if nsumi n (fun i => da_n0i p wd i) <? n0_cutoff then n1
    else nsumi (da_dim p wd) (fun k =>
           let n2v := nsumi n (fun i => da_n2vi p wd k i) in n2v * n2v) / - (n2 * n2) + $1.
  Definition da_n3i (p : P) (wd : list T) : T := nrecip (- da_n3 p wd + $1).

  (** dft/association.rs 128-151 (nassoc = 1), at one grid point *)
  Definition phi_assoc_one (p : P) (t : T) (wd : list T) : T :=
    let a := ixn (p_assoc_comp p) 0 in
    let n3i := da_n3i p wd in
    let rho0 := ix (da_rho0 p t wd) a in
    let k := da_n2 p t wd * n3i * ix (seg_radius p t) a in
    let deltarho := ((k / $18 + $0.5) * k * da_xi p t wd + $1) * n3i
      * (nexpm1 (nrecip t * ix2 (p_epsilon_k_aibj p) a a)
         * ((ix (p_sigma p) a) ^ 3 * ix2 (p_kappa_aibj p) a a))
      * rho0 in
    let na := ix (p_na p) a in
    let nb := ix (p_nb p) a in
    if n0 <? nb then
      let xa := assoc_site_frac_ab deltarho na nb in
      let xb := (xa - $1) * (na / nb) + $1 in
      (f_assoc xa * na + f_assoc xb * nb) * rho0
    else
      let xa := assoc_site_frac_a deltarho na in
      f_assoc xa * na * rho0.

  (** dft/association.rs 153-178: the converged site fractions of one grid point are the
      start vector of the next; the first error ends the evaluation *)
  Fixpoint phi_assoc_cross (lu : lu_solver K) (p : P) (t : T) (max_iter : nat) (tol : T)
      (x : list T) (profile : list (list T)) : res (list T) :=
    match profile with
    | nil => Ok nil
    | wd :: profile =>
        match cross_association lu p t (da_rho0 p t wd) (seg_radius p t)
                (da_n2 p t wd) (da_n3i p wd) (da_xi p t wd) max_iter tol (Some x) with
        | (Err e, _) => Err e
        | (Ok a, x') =>
            match phi_assoc_cross lu p t max_iter tol (unwrap_or x' x) profile with
            | Ok l => Ok (a :: l)
            | Err e => Err e
            end
        end
    end.

  (** dft/association.rs 64-180 *)
  Definition phi_assoc (lu : lu_solver K) (max_iter : nat) (tol : T) (p : P) (t : T)
      (profile : list (list T)) : res (list T) :=
    if Nat.eqb (p_nassoc p) 1 then Ok (map (phi_assoc_one p t) profile)
    else phi_assoc_cross lu p t max_iter tol (repeat ($0.2) (2 * p_nassoc p)) profile.

  (* -------------------------------------------------------- dft/pure_saft_functional.rs *)

  (** feos_dft FMTVersion (external) *)
  Inductive fmt_version := WhiteBear | KierlikRosinberg | AntiSymWhiteBear.

  (** pure_saft_functional.rs 18-19 *)
  Definition pi36m1 : T := $1 / ($36 * npi).
  Definition n3_cutoff : T := $1e-5.

  (** pure_saft_functional.rs 37-54 *)
  Definition pure_fmt_weight_functions (p : P) (t : T) : weight_info :=
    let r := seg_radius p t in
    {| wi_local := false;
       wi_comp := map (fun s => {| wf_prefactor := p_m p; wf_radius := r; wf_sh := s |})
                    [Delta; Theta; DeltaVec];
       wi_fmt := [] |}.

  (** pure_saft_functional.rs 105-111 *)
  Definition fmt_f3_raw (n3 : T) : T :=
    let ln31 := nln1p (- n3) in
    let n3rec := nrecip n3 in
    let n3m1 := - n3 + $1 in
    let n3m1rec := nrecip n3m1 in
    (n3m1 * n3m1 * ln31 + n3) * n3rec * n3rec * n3m1rec * n3m1rec.
  Definition fmt_f3_taylor (n3 : T) : T :=
    (((n3 * $35 / $6 + $4.8) * n3 + $3.75) * n3 + $8 / $3) * n3 + $1.5.
  Definition fmt_f3 (n3 : T) : T :=
    if n3 <? n3_cutoff then fmt_f3_taylor n3 else fmt_f3_raw n3.

  (** pure_saft_functional.rs 85-103; None = unreachable!() *)
  Definition pure_fmt_scalars (v : fmt_version) (r n1' n2 : T) (n2v : list T) : option (T * T) :=
    let n1v := map (fun x => x / (r * $4 * npi)) n2v in
    match v with
    | WhiteBear => Some (n1' * n2 - ndot n1v n2v, n2 * n2 - ndot n2v n2v * $3)
    | AntiSymWhiteBear =>
        let xi2 := ndot n2v n2v / n2 ^ 2 in
        let xi2 := if n1 <? xi2 then n1 else xi2 in
        Some (n1' * n2 - ndot n1v n2v, n2 * n2 * (- xi2 + $1) ^ 3)
    | KierlikRosinberg => None
    end.

  (** pure_saft_functional.rs 77-112 *)
  Definition pure_phi_fmt (v : fmt_version) (p : P) (t : T) (wd : list T) : option T :=
    let n2 := ix wd 0 in
    let n3 := ix wd 1 in
    let n2v := skipn 2 wd in
    let r := ix (hs_diameter p t) 0 * $0.5 in
    let n1' := n2 / (r * $4 * npi) in
    let n0' := n2 / (r * r * $4 * npi) in
    let n3m1rec := nrecip (- n3 + $1) in
    match pure_fmt_scalars v r n1' n2 n2v with
    | None => None
    | Some (n1n2, n2n2) =>
        Some (- (n0' * nln1p (- n3)) + n1n2 * n3m1rec + n2n2 * n2 * pi36m1 * fmt_f3 n3)
    end.

  (** pure_saft_functional.rs 115-139 *)
  Definition pure_phi_assoc (p : P) (t : T) (wd : list T) : T :=
    let n2 := ix wd 0 in
    let n3 := ix wd 1 in
    let n2v := skipn 2 wd in
    let r := ix (hs_diameter p t) 0 * $0.5 in
    let n0' := n2 / (r * r * $4 * npi) in
    let n3m1rec := nrecip (- n3 + $1) in
    let xi := if n2 <? n0_cutoff * $4 * npi * ix (p_m p) 0 * (nre r) ^ 2 then n1
              else - ndot n2v n2v / (n2 * n2) + $1 in
    let k := n2 * n3m1rec * r in
    let deltarho := ((k / $18 + $0.5) * k * xi + $1) * n3m1rec
      * (nexpm1 (nrecip t * ix2 (p_epsilon_k_aibj p) 0 0)
         * ((ix (p_sigma p) 0) ^ 3 * ix2 (p_kappa_aibj p) 0 0))
      * (n0' / ix (p_m p) 0 * xi) in
    let na := ix (p_na p) 0 in
    let nb := ix (p_nb p) 0 in
    if n0 <? nb then
      let xa := assoc_site_frac_ab deltarho na nb in
      let xb := (xa - $1) * na / nb + $1 in
      n0' / ix (p_m p) 0 * xi * (f_assoc xa * na + f_assoc xb * nb)
    else
      let xa := assoc_site_frac_a deltarho na in
      n0' / ix (p_m p) 0 * xi * (f_assoc xa * na).

  (** pure_saft_functional.rs 56-142 *)
  Definition phi_pure_fmt_assoc (v : fmt_version) (p : P) (t : T) (profile : list (list T))
      : outcome (list T) :=
    if existsb (fun wd => n1 <? ix wd 1) profile then Value (Err IterationFailed)
    else
      match collect_opt (map (fun wd =>
              match pure_phi_fmt v p t wd with
              | None => None
              | Some phi =>
                  Some (if Nat.eqb (p_nassoc p) 1 then phi + pure_phi_assoc p t wd else phi)
              end) profile) with
      | Some l => Value (Ok l)
      | None => Panic
      end.

  (** pure_saft_functional.rs 163-178 *)
  Definition pure_chain_weight_functions (p : P) (t : T) : weight_info :=
    let d := hs_diameter p t in
    {| wi_local := true;
       wi_comp := [wf_scaled d Delta;
                   {| wf_prefactor := map (fun m => m / $8) (p_m p); wf_radius := d; wf_sh := Theta |}];
       wi_fmt := [] |}.

  (** pure_saft_functional.rs 180-194 at one grid point *)
  Definition pure_chain_y (eta : T) : T := (eta * $0.5 - $1) / (eta - $1) ^ 3.
  Definition phi_pure_chain (p : P) (wd : list T) : T :=
    let rho := ix wd 0 in
    let lambda := lambda_reg (ix wd 1) in
    let eta := ix wd 2 in
    - ((nln (pure_chain_y eta * lambda) - $1) * (ix (p_m p) 0 - $1)) * rho.

  (** pure_saft_functional.rs 257-264 *)
  Definition pure_c1 (m eta : T) : T :=
    nrecip ((eta * $8 - eta ^ 2 * $2) / (eta - $1) ^ 4 * m
      + (eta * $20 - eta ^ 2 * $27 + eta ^ 3 * $12 - eta ^ 4 * $2)
        / ((eta - $1) * (eta - $2)) ^ 2 * ($1 - m)
      + $1).
  (** pure_saft_functional.rs 251-256 *)
  Definition pure_series (c0 c1 c2 : list Q) (m eta : T) : T :=
    let m1 := (m - $1) / m in
    let m2 := m1 * (m - $2) / m in
    nsumi 7 (fun i => eta ^ i * (cst c0 i + m1 * cst c1 i + m2 * cst c2 i)).

  (** pure_saft_functional.rs 233-315 at one grid point *)
  Definition pure_eta (p : P) (t rho : T) : T :=
    rho * frac_pi_6 * ix (p_m p) 0 * (ix (hs_diameter p t) 0) ^ 3.
  Definition phi_pure_disp (p : P) (t rho : T) : T :=
    let m := ix (p_m p) 0 in
    let eta := pure_eta p t rho in
    let e := nrecip t * ix (p_epsilon_k p) 0 in
    let s3 := (ix (p_sigma p) 0) ^ 3 in
    - (rho * m) ^ 2 * e * s3 * npi
    * (pure_series A0 A1 A2 m eta * $2
       + pure_c1 m eta * (pure_series B0 B1 B2 m eta * m * e)).
  Definition phi_pure_dipole (p : P) (t rho : T) : T :=
    let eta := pure_eta p t rho in
    let e := nrecip t * ix (p_epsilon_k p) 0 in
    let s3 := (ix (p_sigma p) 0) ^ 3 in
    let mu2_term := e * s3 * ix (p_mu2 p) 0 in
    let m := nmin (ix (p_m p) 0) ($2) in
    let m1 := (m - $1) / m in
    let m2 := m1 * (m - $2) / m in
    let phi2 := - (rho * rho) * d_pair_integral_ij m1 m2 eta AD BD e
                * (mu2_term * mu2_term / s3 * npi) in
    let phi3 := - (rho * rho * rho) * d_triplet_integral_ijk m1 m2 eta CD
                * (mu2_term * mu2_term * mu2_term / s3 * pi_sq_43) in
    d_pade phi2 phi3.
  Definition phi_pure_quadrupole (p : P) (t rho : T) : T :=
    let eta := pure_eta p t rho in
    let e := nrecip t * ix (p_epsilon_k p) 0 in
    let s3 := (ix (p_sigma p) 0) ^ 3 in
    let q2_term := e * (ix (p_sigma p) 0) ^ 5 * ix (p_q2 p) 0 in
    let m := nmin (ix (p_m p) 0) ($2) in
    let m1 := (m - $1) / m in
    let m2 := m1 * (m - $2) / m in
    let phi2 := - (rho * rho) * d_pair_integral_ij m1 m2 eta AQ BQ e
                * (q2_term * q2_term / (ix (p_sigma p) 0) ^ 7 * npi * $0.5625) in
    let phi3 := rho * rho * rho * d_triplet_integral_ijk m1 m2 eta CQ
                * (q2_term * q2_term * q2_term / s3 ^ 3 * npi * npi * $0.5625) in
    d_pade phi2 phi3.
  Definition phi_pure_att (p : P) (t : T) (wd : list T) : T :=
    let rho := ix wd 0 in
    let phi := phi_pure_disp p t rho in
    let phi := if Nat.ltb 0 (p_ndipole p) then phi + phi_pure_dipole p t rho else phi in
    if Nat.ltb 0 (p_nquadpole p) then phi + phi_pure_quadrupole p t rho else phi.

  (* ------------------------------------------------------------------------ dft/mod.rs *)

  Inductive fcontribution := FPureFmtAssoc (v : fmt_version) | FPureChain | FPureAtt
    | FFmt (v : fmt_version) | FChain | FAtt | FAssoc (max_iter : nat) (tol : T).

  Inductive joback_model := JRecords (l : list (joback_record K)) | JDefault (n : nat).

  (** dft/mod.rs 27-34 *)
  Record functional := mkFunctional {
    f_params : P; f_version : fmt_version; f_options : options K;
    f_contributions : list fcontribution; f_joback : joback_model }.

  Definition is_white_bear (v : fmt_version) : bool :=
    match v with KierlikRosinberg => false | _ => true end.

  (** dft/mod.rs 45-104 *)
  Definition f_with_options (p : P) (v : fmt_version) (o : options K) : functional :=
    {| f_params := p; f_version := v; f_options := o;
       f_contributions :=
         if is_white_bear v && Nat.eqb (length (p_m p)) 1 then
           [FPureFmtAssoc v]
           ++ (if existsb (fun m => n1 <? m) (p_m p) then [FPureChain] else [])
           ++ [FPureAtt]
         else
           [FFmt v]
           ++ (if existsb (fun m => negb (neqb m n1)) (p_m p) then [FChain] else [])
           ++ [FAtt]
           ++ (if Nat.ltb 0 (p_nassoc p) then [FAssoc (o_max_iter o) (o_tol o)] else []);
       f_joback := match p_joback p with
                   | Some l => JRecords l | None => JDefault (length (p_m p)) end |}.
  (** dft/mod.rs 37-43 *)
  Definition f_new_full (p : P) (v : fmt_version) : functional := f_with_options p v default_options.
  Definition f_new (p : P) : functional := f_with_options p WhiteBear default_options.

  (** dft/mod.rs 108-114 *)
  Definition f_subset (f : functional) (l : list nat) : option functional :=
    match subset (f_params f) l with
    | Some p => Some (f_with_options p (f_version f) (f_options f))
    | None => None
    end.

  (** dft/mod.rs 116-120 *)
  Definition f_compute_max_density (f : functional) (moles : list T) : T :=
    o_max_eta (f_options f) * nsum moles
    / nsumi (length (p_m (f_params f))) (fun i =>
        frac_pi_6 * ix (p_m (f_params f)) i * (ix (p_sigma (f_params f)) i) ^ 3 * ix moles i).

  (** dft/mod.rs 165-173 *)
  Definition pair_potential (p : P) (r : list T) : list (list T) :=
    mk2 (length (p_m p)) (length r) (fun i j =>
      $4 * ix (p_epsilon_k p) i
      * ((ix (p_sigma p) i / ix r j) ^ 12 - (ix (p_sigma p) i / ix r j) ^ 6)).

  (* --------------------------------- FMT mixture functional of feos_dft (external crate) *)

  (** feos_dft::fundamental_measure_theory::FMTContribution (external, not in /repo): White
      Bear functional of a mixture in a uniform fluid (vector densities zero), used by
      dft/mod.rs 67.  Part of the trusted base where a theorem mentions it. *)
  Definition ext_fmt_bulk (p : P) (t : T) (rho : list T) : T :=
    let n := length (p_m p) in
    let r := seg_radius p t in
    let m := p_m p in
    let w0 := nsumi n (fun i => ix rho i * ix m i) in
    let w1 := nsumi n (fun i => ix rho i * ix m i * ix r i) in
    let w2 := nsumi n (fun i => ix rho i * ix m i * ix r i * ix r i) * $4 * npi in
    let w3 := nsumi n (fun i => ix rho i * ix m i * ix r i * ix r i * ix r i) * $4 * frac_pi_3 in
    - (w0 * nln1p (- w3)) + w1 * w2 * nrecip (- w3 + $1) + w2 * w2 * w2 * pi36m1 * fmt_f3 w3.

  (** feos_dft::ideal_chain_contribution::IdealChainContribution (external, not in /repo; chosen
      by [molecule_shape] = NonSpherical(m), dft/mod.rs 130-132) in a uniform fluid:
      sum of rho_i (m_i - 1) (ln (|rho_i| + eps) - 1).  Part of the trusted base where a theorem
      mentions it. *)
  Definition ext_ideal_chain (p : P) (rho : list T) : T :=
    nsumi (length (p_m p)) (fun i =>
      ix rho i * (ix (p_m p) i - $1) * (nln (lambda_reg (ix rho i)) - $1)).

  (** Helmholtz energy density of one contribution in a uniform fluid.  The trait method
      [calculate_helmholtz_energy_density] is called by feos_dft (external) with one grid point
      holding the weighted densities of the uniform fluid; None = error or panic. *)
  Definition bulk_contribution (lu : lu_solver K) (p : P) (t : T) (dim : nat) (rho : list T)
      (c : fcontribution) : option T :=
    match c with
    | FPureFmtAssoc v =>
        match phi_pure_fmt_assoc v p t [bulk_wd (pure_fmt_weight_functions p t) dim rho] with
        | Value (Ok [phi]) => Some phi
        | _ => None
        end
    | FPureChain => Some (phi_pure_chain p (bulk_wd (pure_chain_weight_functions p t) dim rho))
    | FPureAtt => Some (phi_pure_att p t (bulk_wd (att_weight_functions psi_dft p t) dim rho))
    | FFmt _ => Some (ext_fmt_bulk p t rho)
    | FChain => Some (phi_chain p t (bulk_wd (chain_weight_functions p t) dim rho))
    | FAtt => Some (phi_att p t (bulk_wd (att_weight_functions psi_dft p t) dim rho))
    | FAssoc k tol =>
        match phi_assoc lu k tol p t [bulk_wd (assoc_weight_functions p t) dim rho] with
        | Ok [phi] => Some phi
        | _ => None
        end
    end.

  (** bulk Helmholtz energy density of the functional: all contributions and the ideal chain
      term (feos_dft [DFT] as an equation of state, external) *)
  Definition f_bulk (lu : lu_solver K) (f : functional) (t : T) (dim : nat) (rho : list T) : option T :=
    match collect_opt (map (bulk_contribution lu (f_params f) t dim rho) (f_contributions f)) with
    | Some l => Some (nsum l + ext_ideal_chain (f_params f) rho)
    | None => None
    end.
End Dft.

Arguments Value {A}. Arguments Panic {A}.
Arguments functional : clear implicits.
Arguments fcontribution : clear implicits.
Arguments weight_info : clear implicits.
Arguments weight_function : clear implicits.
