(** Model of src/eos/*.rs: residual Helmholtz energy contributions of the equation of state.

    Units are the reduced units of the Rust code (K, Angstrom, particles, energies in kT).
    Arrays are lists, [from_shape_fn] is [mk1]/[mk2], accumulation loops are left folds in the
    order of the Rust loops. *)
From Coq Require Import ZArith QArith List Bool.
From Verif Require Import Num Tables M_Params.
Import ListNotations.
Local Open Scope num_scope.

Section Eos.
  Context {K : Num}.
  Notation T := (car K).
  Notation P := (params K).

  (** table access; in range wherever used *)
  Definition cst (t : list Q) (i : nat) : T := nlit (nth i t 0%Q).
  Definition cst2 (t : list (list Q)) (i j : nat) : T := nlit (nth j (nth i t nil) 0%Q).

  (** std::f64::consts::FRAC_PI_3 / FRAC_PI_6, f64::EPSILON and its square root 2^-26 *)
  Definition frac_pi_3 : T := npi / $3.
  Definition frac_pi_6 : T := npi / $6.
  Definition f_eps : T := nlit (1 # 4503599627370496).
  Definition sqrt_eps : T := nlit (1 # 67108864).

  (** feos_core::StateHD (external crate): StateHD::new(temperature, volume, moles) *)
  Record state := mkState {
    s_t : T; s_v : T; s_moles : list T; s_rho : list T; s_x : list T }.
  Definition state_new (t v : T) (moles : list T) : state :=
    let total := nsum moles in
    {| s_t := t; s_v := v; s_moles := moles;
       s_rho := map (fun n => n / v) moles;
       s_x := map (fun n => n / total) moles |}.

  (* ------------------------------------------------------------------ hard_sphere.rs *)

  (** hard_sphere.rs 9-14 *)
  Definition hs_diameter (p : P) (t : T) : list T :=
    let ti := nrecip t * $(-3) in
    mk1 (length (p_sigma p)) (fun i =>
      - (nexp (ti * ix (p_epsilon_k p) i) * $0.12 - $1) * ix (p_sigma p) i).

  (** hard_sphere.rs 40-54, component k *)
  Definition zeta (m rho d : list T) (k : nat) : T :=
    nsumi (length m) (fun i => ix rho i * (ix d i) ^ k * (npi / $6 * ix m i)).

  (** hard_sphere.rs 56-64 *)
  Definition zeta_23 (m x d : list T) : T :=
    nsumi (length m) (fun i => ix x i * (ix d i) ^ 2 * ix m i)
    / nsumi (length m) (fun i => ix x i * (ix d i) ^ 3 * ix m i).

  (** hard_sphere.rs 22-31 *)
  Definition a_hs (p : P) (s : state) : T :=
    let d := hs_diameter p (s_t s) in
    let z := zeta (p_m p) (s_rho s) d in
    let frac_1mz3 := - nrecip (z 3%nat - $1) in
    let z23 := zeta_23 (p_m p) (s_x s) d in
    s_v s * $6 / npi
    * (z 1%nat * z 2%nat * frac_1mz3 * $3
       + (z 2%nat) ^ 2 * frac_1mz3 ^ 2 * z23
       + (z 2%nat * z23 ^ 2 - z 0%nat) * nln1p (z 3%nat * $(-1))).

  (* ------------------------------------------------------------------- hard_chain.rs *)

  (** hard_chain.rs 18-20: contact value of the pair distribution, as a function of the
      diameter and zeta_2, zeta_3 *)
  Definition g_hs (d z2 z3 : T) : T :=
    let frac_1mz3 := - nrecip (z3 - $1) in
    let c := z2 * frac_1mz3 * frac_1mz3 in
    frac_1mz3 + d * c * $1.5 - d ^ 2 * c ^ 2 * (z3 - $1) * $0.5.

  (** hard_chain.rs 14-26 *)
  Definition a_hc (p : P) (s : state) : T :=
    let d := hs_diameter p (s_t s) in
    let z := zeta (p_m p) (s_rho s) d in
    nsumi (length (p_m p)) (fun i =>
      ix (s_rho s) i * ($1 - ix (p_m p) i) * nln (g_hs (ix d i) (z 2%nat) (z 3%nat)))
    * s_v s.

  (* ------------------------------------------------------------------- dispersion.rs *)

  (** segment radius, [p.hs_diameter(t) * 0.5] (dispersion.rs 75, polar.rs 203, association.rs 43) *)
  Definition seg_radius (p : P) (t : T) : list T := map (fun d => d * $0.5) (hs_diameter p t).

  (** dispersion.rs 78, polar.rs 204, 300, 408, association.rs 47 *)
  Definition packing (p : P) (t : T) (rho : list T) : T :=
    let r := seg_radius p t in
    nsumi (length (p_m p)) (fun i => ix rho i * ix (p_m p) i * ix r i * ix r i * ix r i)
    * $4 * frac_pi_3.

  (** dispersion.rs 84-93 *)
  Definition rho1mix (p : P) (t : T) (rho : list T) : T :=
    let n := length (p_m p) in
    nsum (flat_map (fun i => mk1 n (fun j =>
      let eps_ij := nrecip t * ix2 (p_epsilon_k_ij p) i j in
      let sigma_ij := (ix2 (p_sigma_ij p) i j) ^ 3 in
      ix rho i * ix rho j * ix (p_m p) i * ix (p_m p) j * eps_ij * sigma_ij)) (seq 0 n)).
  Definition rho2mix (p : P) (t : T) (rho : list T) : T :=
    let n := length (p_m p) in
    nsum (flat_map (fun i => mk1 n (fun j =>
      let eps_ij := nrecip t * ix2 (p_epsilon_k_ij p) i j in
      let sigma_ij := (ix2 (p_sigma_ij p) i j) ^ 3 in
      ix rho i * ix rho j * ix (p_m p) i * ix (p_m p) j * eps_ij * eps_ij * sigma_ij)) (seq 0 n)).

  (** running power [eta_i *= eta], dispersion.rs 98, 102 *)
  Fixpoint run_pow (eta : T) (i : nat) : T :=
    match i with O => n1 | S i => run_pow eta i * eta end.

  (** dispersion.rs 96-103: power series with coefficients (c0, c1, c2) in 1, (m-1)/m, (m-1)(m-2)/m^2 *)
  Definition disp_series (c0 c1 c2 : list Q) (m eta : T) : T :=
    nsumi 7 (fun i =>
      ((m - $1) / m * ((m - $2) / m * cst c2 i + cst c1 i) + cst c0 i) * run_pow eta i).

  (** dispersion.rs 104-109 *)
  Definition disp_c1 (m eta : T) : T :=
    nrecip (m * (eta * $8 - eta ^ 2 * $2) / (eta - $1) ^ 4
      + ($1 - m) * (eta * $20 - eta ^ 2 * $27 + eta ^ 3 * $12 - eta ^ 4 * $2)
        / ((eta - $1) * (eta - $2)) ^ 2
      + $1).

  (** dispersion.rs 81 *)
  Definition mean_segments (p : P) (x : list T) : T :=
    nsumi (length (p_m p)) (fun i => ix x i * ix (p_m p) i).

  (** dispersion.rs 68-113 *)
  Definition a_disp (p : P) (s : state) : T :=
    let rho := s_rho s in
    let eta := packing p (s_t s) rho in
    let m := mean_segments p (s_x s) in
    let i1 := disp_series A0 A1 A2 m eta in
    let i2 := disp_series B0 B1 B2 m eta in
    let c1 := disp_c1 m eta in
    (- rho1mix p (s_t s) rho * i1 * $2 - rho2mix p (s_t s) rho * m * c1 * i2) * npi * s_v s.

  (* ------------------------------------------------------------------------ polar.rs *)

  (** polar.rs 80 *)
  Definition pi_sq_43 : T := $4 * npi * frac_pi_3.

  (** [parameters.m[comp[i]].min(2.0)], polar.rs 112, 120, 132, 417, 420, 426, 432 *)
  Definition mcap (p : P) (c : nat) : T := nmin (ix (p_m p) c) ($2).

  (** MeanSegmentNumbers::new, polar.rs 94-146.  The Rust code fills the entries with
      i <= j <= k of four arrays; the model has one function of the component numbers
      ([same] tells whether two loop indices coincide). *)
  Definition frac1 (m : T) : T := (m - $1) / m.
  Definition frac2 (m : T) : T := frac1 m * (m - $2) / m.
  (** geometric mean of two different components, line 121 / 421 *)
  Definition mseg2 (p : P) (a b : nat) : T := nsqrt (mcap p a * mcap p b).
  (** geometric mean of three components, lines 124, 127, 133 / 427, 433 *)
  Definition mseg3 (p : P) (a b c : nat) : T := ncbrt (mcap p a * mcap p b * mcap p c).

  (** polar.rs 148-167; [a.len()] is the table length (5 or 4) *)
  Definition etas (eta : T) (i : nat) : T :=
    let eta2 := eta * eta in
    match i with
    | O => n1 | 1%nat => eta | 2%nat => eta2 | 3%nat => eta2 * eta | _ => eta2 * eta2
    end.
  Definition pair_integral_ij (mij1 mij2 eta : T) (a b : list (list Q)) (eps_ij_t : T) : T :=
    nsumi (length a) (fun i =>
      etas eta i
      * (eps_ij_t * (cst2 b i 0 + mij1 * cst2 b i 1 + mij2 * cst2 b i 2)
         + cst2 a i 0 + mij1 * cst2 a i 1 + mij2 * cst2 a i 2)).

  (** polar.rs 169-175 *)
  Definition triplet_integral_ijk (mijk1 mijk2 eta : T) (c : list (list Q)) : T :=
    nsumi (length c) (fun i =>
      etas eta i * (cst2 c i 0 + mijk1 * cst2 c i 1 + mijk2 * cst2 c i 2)).

  (** polar.rs 177-182 *)
  Definition triplet_integral_ijk_dq (mijk eta : T) (c : list (list Q)) : T :=
    nsumi (length c) (fun i => etas eta i * (cst2 c i 0 + mijk * cst2 c i 1)).

  (** order of the terms accumulated by the nested loops over i, j > i, k > j *)
  Definition above (i n : nat) : list nat := seq (S i) (n - S i).
  Definition tri2 (n : nat) (diag : nat -> T) (off : nat -> nat -> T) : list T :=
    flat_map (fun i => diag i :: map (off i) (above i n)) (seq 0 n).
  Definition tri3 (n : nat) (diag : nat -> T) (iij ijj : nat -> nat -> T)
      (ijk : nat -> nat -> nat -> T) : list T :=
    flat_map (fun i => diag i ::
      flat_map (fun j => iij i j :: ijj i j :: map (ijk i j) (above j n)) (above i n)) (seq 0 n).

  (** [let mut result = phi2 * phi2 / (phi2 - phi3) * volume; if result.re().is_nan() {..}],
      polar.rs 266-270, 363-367, 478-482 *)
  Definition pade (phi2 phi3 v : T) : T :=
    let result := phi2 * phi2 / (phi2 - phi3) * v in
    if nisnan result then phi2 * v else result.

  (** polar.rs 189-271 *)
  Definition dipole_phi2 (p : P) (t : T) (rho : list T) (eta : T) : T :=
    let t_inv := nrecip t in
    let e := fun i j => t_inv * ix2 (p_e_k_ij p) i j in
    let s3 := fun i j => (ix2 (p_sigma_ij p) i j) ^ 3 in
    let mu := fun c => t_inv * s3 c c * ix (p_epsilon_k p) c * ix (p_mu2 p) c in
    let dc := ixn (p_dipole_comp p) in
    nsubs (tri2 (p_ndipole p)
      (fun i => let di := dc i in
         ix rho di * ix rho di * mu di * mu di
         * pair_integral_ij (frac1 (mcap p di)) (frac2 (mcap p di)) eta AD BD (e di di)
         / s3 di di)
      (fun i j => let di := dc i in let dj := dc j in
         ix rho di * ix rho dj * mu di * mu dj
         * pair_integral_ij (frac1 (mseg2 p di dj)) (frac2 (mseg2 p di dj)) eta AD BD (e di dj)
         / s3 di dj * $2))
    * npi.
  Definition dipole_phi3 (p : P) (t : T) (rho : list T) (eta : T) : T :=
    let t_inv := nrecip t in
    let sg := ix2 (p_sigma_ij p) in
    let s3 := fun i j => (ix2 (p_sigma_ij p) i j) ^ 3 in
    let mu := fun c => t_inv * s3 c c * ix (p_epsilon_k p) c * ix (p_mu2 p) c in
    let dc := ixn (p_dipole_comp p) in
    nsubs (tri3 (p_ndipole p)
      (fun i => let di := dc i in
         ix rho di * ix rho di * ix rho di * mu di * mu di * mu di
         * triplet_integral_ijk (frac1 (mcap p di)) (frac2 (mcap p di)) eta CD
         / s3 di di)
      (fun i j => let di := dc i in let dj := dc j in
         ix rho di * ix rho di * ix rho dj * mu di * mu di * mu dj
         / (sg di di * sg di dj * sg di dj)
         * triplet_integral_ijk (frac1 (mseg3 p di di dj)) (frac2 (mseg3 p di di dj)) eta CD * $3)
      (fun i j => let di := dc i in let dj := dc j in
         ix rho di * ix rho dj * ix rho dj * mu di * mu dj * mu dj
         / (sg di dj * sg di dj * sg dj dj)
         * triplet_integral_ijk (frac1 (mseg3 p di dj dj)) (frac2 (mseg3 p di dj dj)) eta CD * $3)
      (fun i j k => let di := dc i in let dj := dc j in let dk := dc k in
         ix rho di * ix rho dj * ix rho dk * mu di * mu dj * mu dk
         / (sg di dj * sg di dk * sg dj dk)
         * triplet_integral_ijk (frac1 (mseg3 p di dj dk)) (frac2 (mseg3 p di dj dk)) eta CD * $6))
    * pi_sq_43.
  Definition a_dipole (p : P) (s : state) : T :=
    let eta := packing p (s_t s) (s_rho s) in
    pade (dipole_phi2 p (s_t s) (s_rho s) eta) (dipole_phi3 p (s_t s) (s_rho s) eta) (s_v s).

  (** polar.rs 285-368.  Line 341 divides by [sigma_ij[[di, di]]], not [[di, dj]]. *)
  Definition quad_phi2 (p : P) (t : T) (rho : list T) (eta : T) : T :=
    let t_inv := nrecip t in
    let e := fun i j => t_inv * ix2 (p_e_k_ij p) i j in
    let sg := ix2 (p_sigma_ij p) in
    let q := fun c => t_inv * (ix (p_sigma p) c) ^ 5 * ix (p_epsilon_k p) c * ix (p_q2 p) c in
    let dc := ixn (p_quadpole_comp p) in
    nsubs (tri2 (p_nquadpole p)
      (fun i => let di := dc i in
         ix rho di * ix rho di * q di * q di
         * pair_integral_ij (frac1 (mcap p di)) (frac2 (mcap p di)) eta AQ BQ (e di di)
         / (sg di di) ^ 7)
      (fun i j => let di := dc i in let dj := dc j in
         ix rho di * ix rho dj * q di * q dj
         * pair_integral_ij (frac1 (mseg2 p di dj)) (frac2 (mseg2 p di dj)) eta AQ BQ (e di dj)
         / (sg di di) ^ 7 * $2))
    * (npi * $0.5625).
  Definition quad_phi3 (p : P) (t : T) (rho : list T) (eta : T) : T :=
    let t_inv := nrecip t in
    let s3 := fun i j => (ix2 (p_sigma_ij p) i j) ^ 3 in
    let q := fun c => t_inv * (ix (p_sigma p) c) ^ 5 * ix (p_epsilon_k p) c * ix (p_q2 p) c in
    let dc := ixn (p_quadpole_comp p) in
    nsum (tri3 (p_nquadpole p)
      (fun i => let di := dc i in
         ix rho di * ix rho di * ix rho di * q di * q di * q di
         * triplet_integral_ijk (frac1 (mcap p di)) (frac2 (mcap p di)) eta CQ
         / (s3 di di) ^ 3)
      (fun i j => let di := dc i in let dj := dc j in
         ix rho di * ix rho di * ix rho dj * q di * q di * q dj
         / (s3 di di * s3 di dj * s3 di dj)
         * triplet_integral_ijk (frac1 (mseg3 p di di dj)) (frac2 (mseg3 p di di dj)) eta CQ * $3)
      (fun i j => let di := dc i in let dj := dc j in
         ix rho di * ix rho dj * ix rho dj * q di * q dj * q dj
         / (s3 di dj * s3 di dj * s3 dj dj)
         * triplet_integral_ijk (frac1 (mseg3 p di dj dj)) (frac2 (mseg3 p di dj dj)) eta CQ * $3)
      (fun i j k => let di := dc i in let dj := dc j in let dk := dc k in
         ix rho di * ix rho dj * ix rho dk * q di * q dj * q dk
         / (s3 di dj * s3 di dk * s3 dj dk)
         * triplet_integral_ijk (frac1 (mseg3 p di dj dk)) (frac2 (mseg3 p di dj dk)) eta CQ * $6))
    * (npi * npi * $0.5625).
  Definition a_quadrupole (p : P) (s : state) : T :=
    let eta := packing p (s_t s) (s_rho s) in
    pade (quad_phi2 p (s_t s) (s_rho s) eta) (quad_phi3 p (s_t s) (s_rho s) eta) (s_v s).

  (** polar.rs 377-381 *)
  Inductive dq_variant := DQ35 | DQ44.

  (** polar.rs 389-483 *)
  Definition dq_phi2 (p : P) (var : dq_variant) (t : T) (rho : list T) (eta : T) : T :=
    let t_inv := nrecip t in
    let e := fun i j => t_inv * ix2 (p_e_k_ij p) i j in
    let sg := ix2 (p_sigma_ij p) in
    let s := ix (p_sigma p) in
    let q := fun c => t_inv * (s c) ^ 4 * ix (p_epsilon_k p) c * ix (p_q2 p) c in
    let mu := fun c => t_inv * (s c) ^ 4 * ix (p_epsilon_k p) c * ix (p_mu2 p) c in
    let dc := ixn (p_dipole_comp p) in
    let qc := ixn (p_quadpole_comp p) in
    nsubs (flat_map (fun i => mk1 (p_nquadpole p) (fun j =>
        let di := dc i in let qj := qc j in
        let mu2_q2_term := match var with
          | DQ35 => mu di / s di * q qj * s qj
          | DQ44 => mu di * q qj
          end in
        ix rho di * ix rho qj * mu2_q2_term / (sg di qj) ^ 5
        * pair_integral_ij (frac1 (mseg2 p di qj)) (frac2 (mseg2 p di qj)) eta ADQ BDQ (e di qj)))
      (seq 0 (p_ndipole p)))
    * (npi * $2.25).
  Definition dq_phi3 (p : P) (t : T) (rho : list T) (eta : T) : T :=
    let t_inv := nrecip t in
    let sg := ix2 (p_sigma_ij p) in
    let s := ix (p_sigma p) in
    let q := fun c => t_inv * (s c) ^ 4 * ix (p_epsilon_k p) c * ix (p_q2 p) c in
    let mu := fun c => t_inv * (s c) ^ 4 * ix (p_epsilon_k p) c * ix (p_mu2 p) c in
    let dc := ixn (p_dipole_comp p) in
    let qc := ixn (p_quadpole_comp p) in
    nsum (flat_map (fun i => flat_map (fun j =>
        let di := dc i in let qj := qc j in
        mk1 (p_ndipole p) (fun k => let dk := dc k in
          ix rho di * ix rho qj * ix rho dk * mu di * q qj * mu dk
          / (sg di qj * sg di dk * sg qj dk) ^ 2
          * triplet_integral_ijk_dq (frac1 (mseg3 p di qj dk)) eta CDQ)
        ++ mk1 (p_nquadpole p) (fun k => let qk := qc k in
          ix rho di * ix rho qj * ix rho qk * mu di * q qj * q qk
          / (sg di qj * sg di qk * sg qj qk) ^ 2
          * nlit ALPHA
          * triplet_integral_ijk_dq (frac1 (mseg3 p di qj qk)) eta CDQ))
        (seq 0 (p_nquadpole p)))
      (seq 0 (p_ndipole p)))
    * (npi * npi).
  Definition a_dq (p : P) (var : dq_variant) (s : state) : T :=
    let eta := packing p (s_t s) (s_rho s) in
    pade (dq_phi2 p var (s_t s) (s_rho s) eta) (dq_phi3 p (s_t s) (s_rho s) eta) (s_v s).

  (* ------------------------------------------------------------------ association.rs *)

  (** association.rs 20-35 *)
  Definition association_strength (p : P) (t : T) (r : list T) (n2 n3i xi : T) (ai aj : nat) : T :=
    let k := ix r ai * ix r aj / (ix r ai + ix r aj) * (n2 * n3i * $2) in
    n3i * (k * xi * (k / $18 + $0.5) + $1)
    * ($0.5 * (ix (p_sigma p) ai + ix (p_sigma p) aj)) ^ 3
    * ix2 (p_kappa_aibj p) ai aj
    * nexpm1 (nrecip t * ix2 (p_epsilon_k_aibj p) ai aj).

  (** association.rs 46 *)
  Definition assoc_n2 (p : P) (t : T) (rho : list T) : T :=
    let r := seg_radius p t in
    nsumi (length (p_m p)) (fun i => ix rho i * ix (p_m p) i * ix r i * ix r i) * $4 * npi.

  (** association.rs 77-85 *)
  Definition assoc_site_frac_ab (deltarho na nb : T) : T :=
    if sqrt_eps <? deltarho then
      (nsqrt ((deltarho * (na - nb) + $1) ^ 2 + deltarho * nb * $4)
       - (deltarho * (nb - na) + $1))
      / (deltarho * na * $2)
    else $1 + deltarho * nb * (deltarho * (nb + na) - $1).

  (** association.rs 87-93 *)
  Definition assoc_site_frac_a (deltarho na : T) : T :=
    if sqrt_eps <? deltarho then
      nsqrt ((deltarho * na * $4 + $1) ^ 2 - $1) / (deltarho * na * $2)
    else $1 + deltarho * na * (deltarho * na * $2 - $1).

  (** [|x| x.ln() - x * 0.5 + 0.5], association.rs 61, 66, 211 *)
  Definition f_assoc (x : T) : T := nln x - x * $0.5 + $0.5.

  (** association.rs 38-68; only constructed for nassoc = 1 (eos/mod.rs 94) *)
  Definition a_assoc (p : P) (s : state) : T :=
    let a := ixn (p_assoc_comp p) 0 in
    let r := seg_radius p (s_t s) in
    let n2 := assoc_n2 p (s_t s) (s_rho s) in
    let n3 := packing p (s_t s) (s_rho s) in
    let n3i := nrecip (- n3 + $1) in
    let deltarho := association_strength p (s_t s) r n2 n3i n1 a a * ix (s_rho s) a in
    let na := ix (p_na p) a in
    let nb := ix (p_nb p) a in
    if n0 <? nb then
      let xa := assoc_site_frac_ab deltarho na nb in
      let xb := (xa - $1) * (na / nb) + $1 in
      ix (s_moles s) a * (f_assoc xa * na + f_assoc xb * nb)
    else
      let xa := assoc_site_frac_a deltarho na in
      ix (s_moles s) a * f_assoc xa * na.

  (** errors of the cross-association routine (EosError, external enum) *)
  Inductive eos_err := NotConverged | MatrixSingular | IterationFailed
    | IncompatibleComponents (a b : nat).
  Inductive res (A : Type) := Ok (a : A) | Err (e : eos_err).
  Arguments Ok {A}. Arguments Err {A}.

  (** num_dual::linalg::LU (external crate): [LU::new(h)?.solve(&g)]; an arbitrary routine *)
  Definition lu_solver : Type := list (list T) -> list T -> option (list T).

  (** num_dual::linalg::norm (external crate) *)
  Definition norm (g : list T) : T := nsqrt (nsum (map (fun x => x * x) g)).

  (** association.rs 240-252: gradient; [x] = site fractions A of all components followed by
      those of B.  [d_i = delta[i, :] * rho]. *)
  Definition ca_dnx (na : nat) (delta : list (list T)) (rho n x : list T) (i : nat) : T :=
    nsumi na (fun j => ix x j * ix n j * (ix2 delta i j * ix rho j)) + $1.
  Definition ca_grad (nassoc : nat) (delta : list (list T)) (na nb rho x : list T) : list T :=
    let xa := firstn nassoc x in
    let xb := skipn nassoc x in
    mk1 nassoc (fun i => nrecip (ix xa i) - ca_dnx nassoc delta rho nb xb i)
    ++ mk1 nassoc (fun i => nrecip (ix xb i) - ca_dnx nassoc delta rho na xa i).
  (** association.rs 245-251: "approximate Hessian" *)
  Definition ca_hess (nassoc : nat) (delta : list (list T)) (na nb rho x : list T) : list (list T) :=
    let xa := firstn nassoc x in
    let xb := skipn nassoc x in
    mk1 nassoc (fun i =>
      mk1 nassoc (fun j => if Nat.eqb i j then - ca_dnx nassoc delta rho nb xb i / ix xa i else n0)
      ++ mk1 nassoc (fun j => ix2 delta i j * ix rho j * - ix nb j))
    ++ mk1 nassoc (fun i =>
      mk1 nassoc (fun j => ix2 delta i j * ix rho j * - ix na j)
      ++ mk1 nassoc (fun j => if Nat.eqb i j then - ca_dnx nassoc delta rho na xa i / ix xb i else n0)).

  (** association.rs 215-259: new iterate and convergence flag (of the old iterate) *)
  Definition newton_step (lu : lu_solver) (nassoc : nat) (delta : list (list T))
      (na nb rho : list T) (tol : T) (x : list T) : res (list T * bool) :=
    let g := ca_grad nassoc delta na nb rho x in
    let h := ca_hess nassoc delta na nb rho x in
    match lu h g with
    | None => Err MatrixSingular
    | Some dx =>
        Ok (map (fun p => fst p - snd p) (combine x dx), norm (map nre g) <? tol)
    end.

  (** association.rs 180-195 *)
  Fixpoint newton_loop (step : list T -> res (list T * bool)) (fuel : nat) (x : list T) : res (list T) :=
    match fuel with
    | O => Ok x        (* only reached for max_iter = 0: the loop body never runs *)
    | S k =>
        match step x with
        | Err e => Err e
        | Ok (x', true) => Ok x'
        | Ok (x', false) => match k with O => Err NotConverged | S _ => newton_loop step k x' end
        end
    end.

  (** association.rs 198-201 *)
  Fixpoint newton_deriv (step : list T -> res (list T * bool)) (k : nat) (x : list T) : res (list T) :=
    match k with
    | O => Ok x
    | S k => match step x with Err e => Err e | Ok (x', _) => newton_deriv step k x' end
    end.

  (** association.rs 155-171: association strength, site numbers and densities of the
      associating components *)
  Definition ca_delta (p : P) (t : T) (r : list T) (n2 n3i xi : T) : list (list T) :=
    mk2 (p_nassoc p) (p_nassoc p) (fun i j =>
      association_strength p t r n2 n3i xi (ixn (p_assoc_comp p) i) (ixn (p_assoc_comp p) j)).
  Definition ca_sel (p : P) (l : list T) : list T :=
    mk1 (p_nassoc p) (fun i => ix l (ixn (p_assoc_comp p) i)).

  (** association.rs 208-212 *)
  Definition ca_energy (nassoc : nat) (na nb rho x : list T) : T :=
    let xa := firstn nassoc x in
    let xb := skipn nassoc x in
    nsumi nassoc (fun i =>
      ix rho i * (f_assoc (ix xa i) * ix na i + f_assoc (ix xb i) * ix nb i)).

  (** association.rs 131-213.  Returns the result and the content of [x0] afterwards
      (the caller's start vector; [None] = no start vector passed). *)
  Definition cross_association (lu : lu_solver) (p : P) (t : T) (rho r : list T) (n2 n3i xi : T)
      (max_iter : nat) (tol : T) (x0 : option (list T)) : res T * option (list T) :=
    if nsum rho <? f_eps then
      (Ok n0, match x0 with Some x => Some (map (fun _ => n1) x) | None => None end)
    else
      let n := p_nassoc p in
      let delta := ca_delta p t r n2 n3i xi in
      let na := ca_sel p (p_na p) in
      let nb := ca_sel p (p_nb p) in
      let rhoa := ca_sel p rho in
      let x := match x0 with Some x => x | None => repeat ($0.2) (2 * n) end in
      let step_re := newton_step lu n (map (map nre) delta) na nb (map nre rhoa) tol in
      match newton_loop step_re max_iter x with
      | Err e => (Err e, x0)
      | Ok x =>
          match newton_deriv (newton_step lu n delta na nb rhoa tol) (nderiv K) x with
          | Err e => (Err e, x0)
          | Ok xd =>
              (Ok (ca_energy n na nb rhoa xd),
               match x0 with Some _ => Some x | None => None end)
          end
      end.

  (** association.rs 96-122; None = panic of [unwrap] *)
  Definition a_cross_assoc (lu : lu_solver) (max_iter : nat) (tol : T) (p : P) (s : state) : option T :=
    let r := seg_radius p (s_t s) in
    let n2 := assoc_n2 p (s_t s) (s_rho s) in
    let n3 := packing p (s_t s) (s_rho s) in
    let n3i := nrecip (- n3 + $1) in
    match fst (cross_association lu p (s_t s) (s_rho s) r n2 n3i n1 max_iter tol None) with
    | Ok a => Some (a * s_v s)
    | Err _ => None
    end.

  (* -------------------------------------------------------------------------- mod.rs *)

  (** eos/mod.rs 32-50 *)
  Record options := mkOptions {
    o_max_eta : T; o_max_iter : nat; o_tol : T; o_dq : dq_variant }.
  Definition default_options : options :=
    {| o_max_eta := $0.5; o_max_iter := 50; o_tol := $1e-10; o_dq := DQ35 |}.

  Inductive contribution := CHardSphere | CHardChain | CDispersion | CDipole | CQuadrupole
    | CDipoleQuadrupole (v : dq_variant) | CAssociation | CCrossAssociation (max_iter : nat) (tol : T).

  Inductive ideal_gas_model := IG_QSPR | IG_Joback (l : list (joback_record K)).

  (** eos/mod.rs 52-58 *)
  Record eos := mkEos {
    e_params : P; e_options : options; e_contributions : list contribution;
    e_ideal_gas : ideal_gas_model }.

  (** eos/mod.rs 65-115 *)
  Definition with_options (p : P) (o : options) : eos :=
    {| e_params := p; e_options := o;
       e_contributions :=
         [CHardSphere; CHardChain; CDispersion]
         ++ (if Nat.ltb 0 (p_ndipole p) then [CDipole] else [])
         ++ (if Nat.ltb 0 (p_nquadpole p) then [CQuadrupole] else [])
         ++ (if Nat.ltb 0 (p_ndipole p) && Nat.ltb 0 (p_nquadpole p)
             then [CDipoleQuadrupole (o_dq o)] else [])
         ++ match p_nassoc p with
            | O => []
            | 1%nat => [CAssociation]
            | _ => [CCrossAssociation (o_max_iter o) (o_tol o)]
            end;
       e_ideal_gas := match p_joback p with Some l => IG_Joback l | None => IG_QSPR end |}.
  (** eos/mod.rs 61-63 *)
  Definition eos_new (p : P) : eos := with_options p default_options.

  (** eos/mod.rs 119-121 *)
  Definition components (e : eos) : nat := length (p_pure_records (e_params e)).
  (** eos/mod.rs 123-128 *)
  Definition eos_subset (e : eos) (l : list nat) : option eos :=
    match subset (e_params e) l with
    | Some p => Some (with_options p (e_options e))
    | None => None
    end.

  (** eos/mod.rs 130-134 *)
  Definition compute_max_density (e : eos) (moles : list T) : T :=
    o_max_eta (e_options e) * nsum moles
    / nsumi (length (p_m (e_params e))) (fun i =>
        frac_pi_6 * ix (p_m (e_params e)) i * (ix (p_sigma (e_params e)) i) ^ 3 * ix moles i).

  (** dispatch of the trait objects [Box<dyn HelmholtzEnergy>]; None = panic *)
  Definition eval_contribution (lu : lu_solver) (p : P) (c : contribution) (s : state) : option T :=
    match c with
    | CHardSphere => Some (a_hs p s)
    | CHardChain => Some (a_hc p s)
    | CDispersion => Some (a_disp p s)
    | CDipole => Some (a_dipole p s)
    | CQuadrupole => Some (a_quadrupole p s)
    | CDipoleQuadrupole v => Some (a_dq p v s)
    | CAssociation => Some (a_assoc p s)
    | CCrossAssociation k tol => a_cross_assoc lu k tol p s
    end.

  (** feos_core EquationOfState::evaluate_residual (external default method):
      sum of all contributions; None = panic *)
  Definition residual (lu : lu_solver) (e : eos) (s : state) : option T :=
    match collect_opt (map (fun c => eval_contribution lu (e_params e) c s) (e_contributions e)) with
    | Some l => Some (nsum l)
    | None => None
    end.
End Eos.

Arguments Ok {A}. Arguments Err {A}.
Arguments state : clear implicits.
Arguments eos : clear implicits.
Arguments options : clear implicits.
Arguments contribution : clear implicits.
Arguments ideal_gas_model : clear implicits.
Arguments lu_solver : clear implicits.
