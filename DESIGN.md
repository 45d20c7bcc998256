# Formal model of feos-pcsaft in Rocq (Coq 8.16.1)

Contents: approach; trusted base; what is modelled; what is not modelled; how statements are kept
independent of the model; findings in the code; each property with its theorems and the axioms they use;
testing against wrong programs.

## Approach

The Rust code is generic over `D: DualNum<f64>`.  The model keeps that: every numeric function is a
Gallina function over a record `Num` of operations (`Num.v`), and the *same* definition is instantiated at

* `RNum` (`RNum.v`): exact real arithmetic.  Used for all algebraic and analytic theorems.
* `XNum` (`XNum.v`): reals extended with NaN and signed infinities.  Used for finiteness (C07) and for the
  `is_nan` branches.
* `DualOf K` (`DNum.v`): dual numbers over any `K`.  `DualOf RNum` is `Dual64` without rounding,
  `DualOf (DualOf RNum)` is `HyperDual64`, and n-fold nesting carries derivatives of order n.  Used for C08
  and C15.
* `BNum L` (`BNum.v`): f64 rounding (53 bits, nearest even, unbounded exponents) around exact operations, with an
  arbitrary math library `L`.  Used for C52.

Arrays are lists, matrices are lists of rows, loops are folds over `seq`.  `panic!`, `unwrap`, `expect` and
out-of-bounds accesses are explicit `None` or error values where they are reachable.

Files:

* `M_*.v`: the model, function by function; every definition cites file and lines of /repo.  No proofs.
* `Spec.v`, `SpecDft.v`: the published PC-SAFT expressions and the mass-action law, in the bulk and on density profiles, written independently of the model
  with sums over components.  `F_*.v`: lemmas.  `Samples.v`: concrete parameter sets for the examples.
* `P_*.v`: the theorems named after the properties (`Cnn_...`), an `Example` with a concrete non-trivial
  case beside them, and `Print Assumptions`.

A theorem whose name ends in `_partial` covers part of its property; one ending in `_refuted` exhibits a
counterexample to the property (or to part of it) in the faithful model.

## Trusted base

* Coq's kernel, including its `vm_compute` reduction (no native compilation, no flag that disables a check; `_CoqProject` has only `-Q`).
* The axioms listed by `Print Assumptions`.  Every theorem uses a subset of these two groups, both from
  Coq's standard library:
  * group R: the axioms behind `Reals`
    (`ClassicalDedekindReals.sig_forall_dec`, `ClassicalDedekindReals.sig_not_dec`,
    `FunctionalExtensionality.functional_extensionality_dep`), `Classical_Prop.classic` (used by
    Coquelicot and by case distinctions) and, through Coquelicot or `Interval`,
    `Description.constructive_definite_description`/`ClassicalEpsilon` where listed below;
  * group F: the specification of primitive floats and 63-bit integers (`Coq.Floats.FloatAxioms`,
    `Coq.Numbers.Cyclic.Int63`), used by the tactic `interval` for numerical bounds in some theorems.
  There is no axiom of this development and none of another library.
* The reading of the Rust code as Gallina functions.  This is not machine-checked; the line references,
  the conformance examples against the reference values in the unit tests of /repo (`P_Conform.v`), and the
  seeded-bug log support it.

## What is modelled

| /repo | model | comment |
|---|---|---|
| src/parameters.rs 11-240 | `M_Params.v`, `M_Text.v` | records, from_segments, from_segments_binary, serde derive, Display |
| src/parameters.rs 243-447 | `M_Params.v` | from_records (all combining rules, index sets, transport tables), records, subset (feos_core default method) |
| src/parameters.rs 450-508 | `M_Text.v` | to_markdown, Display as structured output (number formatting abstract) |
| src/eos/mod.rs 26-152 | `M_Eos.v` | options, constructors, choice of contributions, max density, subset, molar weight |
| src/eos/mod.rs 154-343 | `M_Transport.v` | collision integrals, reference values, correlations, with errors and panics |
| src/eos/hard_sphere.rs, hard_chain.rs, dispersion.rs, polar.rs, association.rs | `M_Eos.v` | every function; the Newton iteration with its convergence test, real loop plus the dual steps (`NDERIV`) |
| src/eos/qspr.rs | `M_Transport.v` | all coefficients and the choice of the class |
| src/dft/mod.rs, association.rs, dispersion.rs, hard_chain.rs, polar.rs, pure_saft_functional.rs | `M_Dft.v` | weight functions, Helmholtz energy densities at a grid point, guard and cross-association loop on whole profiles, choice of contributions, pair potential |
| feos_core StateHD::new_virial, second and third virial coefficient (external) | `M_Virial.v`, `P_Virial.v` | state at zero density, which coefficient of the dual number is read |
| src/eos/mod.rs, src/dft/mod.rs: data reported to feos_core and feos_dft | `M_Access.v` | molar weights, fluid parameters, molecule shape, ideal-gas term |
| weighted densities of a profile at one point (feos_dft) | `M_Profile.v` | rows of the weighted-density array for arbitrary local densities and convolutions; published expressions in `SpecDft.v` |
| parameters/*.json (pure-component and group-contribution files) | `Shipped.v`, `M_Shipped.v` | every shipped substance and group as key-value lists, reading of one entry, lookup of groups by name |
| src/python.rs 15-23 | `M_Text.v` | parser of dq_variant |
| src/python.rs 25-187, build_wheel/src/eos.rs 33-61, build_wheel/src/dft.rs 38-76 | `M_Python.v` | argument binding, constructors, getters, repr |

## What is not modelled

* Overflow and underflow of `f64`; rounding, except in C52.  Elsewhere decimal literals are exact rationals, `f64::EPSILON` is 2^-52,
  `f64::EPSILON.sqrt()` is 2^-26.
* The external crates, except as follows.  feos_core: `StateHD::new`, `StateHD::new_virial`, `Parameter::subset`, `new_pure`,
  `new_binary`, the default `evaluate_residual` (sum of contributions), records.  feos_dft: weight functions
  in a homogeneous fluid, the White-Bear functional of mixtures and the ideal-chain term in the bulk
  (`ext_fmt_bulk`, `ext_ideal_chain`, written from the published expressions), FMTVersion; Joback's
  ideal-gas term (`ext_joback`).  num_dual: the
  dual numbers (`DNum.v`), the norm, and LU as an arbitrary routine: theorems that need it assume that the
  solver is exact (`lu_exact`: returns the solution iff the matrix is regular); `gauss_lu_exact` and
  `gaussK_lu_dual` prove that such solvers exist.  quantity: values in SI base units, units not tracked.
  The molar entropy used by `thermal_conductivity_reference` is an arbitrary functional of the residual
  Helmholtz energy.
* Convolution and the density-functional solver of feos_dft: functionals are evaluated at given weighted
  densities, or in the homogeneous limit.
* serde and serde_json beyond JSON values as trees; the text of formatted numbers.
* The parts of the Python layer generated by feos_core's macros (JSON handling, segment records, states, phase
  equilibria); tests; example notebooks.
* Phase equilibria, critical points and other algorithms of feos_core that call this crate.

## Statements independent of the model

Theorems about values compare the model with `Spec.v`, or two runs of the public functions
(`residual`, `eval_contribution`, `from_records`, `subset`, ...), never with an internal helper.  Hypotheses
are collected in a few predicates with a concrete inhabitant next to each theorem: `phys` (m, sigma,
epsilon_k > 0), `assoc_phys` (non-negative association parameters and site numbers), `phys_state` (T, V > 0,
moles >= 0 and not all zero, packing fraction < 1).

## Findings in the code

1. `Quadrupole` divides by `sigma_ij[[di,di]]^7` instead of `sigma_ij[[di,dj]]^7` (eos/polar.rs 341): the
   result depends on the order of the components.  `C03_quadrupole_refuted`, `C39_quadrupole_refuted`.
   The functional lacks the factor two of the off-diagonal term: `C09_two_quadrupoles_refuted`.
2. `assoc_site_frac_a` (one kind of sites) returns a value above two for every strength above the switch:
   `C12_above_switch_refuted`.
3. `assoc_site_frac_ab` is NaN for na = 0: `C07_association_refuted`.  A component with nb = 0 bonds A with A
   alone but not in a mixture: `C05_one_kind_of_sites_refuted`.
4. The cross-association solver accepts its start vector for max_iter = 0 and accepts any isolated root,
   also with negative fractions: `C13_zero_iterations_refuted`, `C13_negative_fractions_refuted`.
5. The functional of a pure component adds the chain term only for m > 1, the equation of state always:
   `C09_short_chain_refuted`.  It lacks the dipole-quadrupole term: `C10_dipole_quadrupole_refuted`.
6. The functional ignores dq_variant: `C37_functional_refuted`.
7. from_segments adds the fourth thermal-conductivity coefficient once per list entry and always writes zero
   diffusion coefficients: `C23_grouping_refuted`, `C23_diffusion_refuted`.
8. The ideal-gas correlation of a component depends on the other components: `C34_other_components_refuted`.
9. The polar Pade approximants have poles inside the physical range: `C07_quadrupole_refuted`.
10. thermal_conductivity_reference rebuilds the equation of state with default options; harmless, since for
    one component no option matters (C28).
11. At zero density the Pade approximants are 0/0 and their NaN guard returns the second-order term alone: the
    third virial coefficient lacks the three-body terms of dipoles and quadrupoles:
    `C40_third_virial_refuted`, exact shift in `C40_third_virial_shift`.
12. Cross-association is zero below a density of f64::EPSILON: second virial coefficients of mixtures with two
    or more associating components lack association, and one associating component divided into two has a
    different second virial coefficient: `C40_no_cross_association`, `C40_split_refuted`.
13. The specialised functional of one component with the antisymmetrised White-Bear version divides by n2^2
    without a guard: NaN at empty grid points: `C42_antisymmetric_refuted`.
14. If a record lacks ideal-gas coefficients, the equation of state falls back to its correlation, the functional
    to zero heat capacities: entropies of one fluid differ between the models: `C44_ideal_gas_refuted`.
15. Finding 5 concerns shipped data: argon has m < 1, and so does ethylene built from the shipped groups, so
    that functional and equation of state differ for them: `C48_functional_refuted`,
    `C49_short_molecule_refuted`.  The shipped group >C< alone gives a negative m: `C49_any_molecule_refuted`.
16. The start value 0.2 of the cross-association routine can lead to a root of the mass-action equations that is
    not a set of fractions.  With 1-nonanol (loetgeringlin2018.json) and water_3B (rehner2020.json) at 300 K and
    packing fraction 0.474 six steps end at (5.02, -3.70, -0.018, -0.0096), which passes the residual test; the
    Helmholtz energy is NaN: `C13_default_start_refuted`, `C07_cross_association_refuted`,
    `C48_cross_association_refuted`.  The physical solution exists and is unique (C14).
17. At empty grid points the cross-association routine of the functional returns a zero without derivatives; the
    second derivatives of the association energy with respect to the densities are negative there:
    `C42_second_derivative_refuted`.  Newton-type density solvers and response functions see zero instead.
18. Just above the low-density switch 2^-26 the closed form of `assoc_site_frac_ab` cancels: with f64 rounding the
    bonded fraction is off by 36 % and the association energy by 30 % or more, while the series below the switch is
    correct to the last bit.  The switch is too low for its series: `C52_switch_refuted`.
19. For na < nb and very strong bonds (strength times density above 2^57) the closed form leaves no bit and returns
    zero, whose logarithm is then taken: `C52_strong_bonds_refuted`.  For equal site numbers the second fraction,
    computed as 1 - (1 - x), becomes zero for strengths above 2^112: `C52_second_fraction_refuted`.
20. The chain term takes `ln` of a contact value 1 + O(density).  Below a packing fraction of about 2^-55 the value
    rounds to 1 and the contribution to zero; above, its relative error grows like roundoff divided by the packing
    fraction (`ln_1p` of the excess would not lose digits): `C52_low_density_chain_refuted`, `C52_hard_chain`.
21. The shortcut of `cross_association` for empty grid points compares a number density with the dimensionless machine
    epsilon, so results of several associating components depend on the unit of length: `C54_several_refuted`.

22. Isotherms can have a second loop at packing fractions above 0.6 (published equation, not the implementation): butane
    at 100 K has three dense volumes for every pressure up to about 3900 bar, so that the volume found by a density
    iteration from a liquid guess is not determined by temperature and pressure: `C59_one_liquid_refuted`.
23. The second virial coefficient of a substance with a dipole or quadrupole turns positive again far below its dispersion
    energy (published coefficients of the polar integrals are negative for segment numbers between 1 and 2): carbon
    dioxide as shipped has a second Boyle temperature near 31 K: `C60_low_temperature_refuted`.
24. The second virial coefficient of a mixture of components of different segment number is not quadratic in the mole
    fractions (published equation): `C61_quadratic_refuted`.

## Properties

After each theorem: its file and the axioms printed by `Print Assumptions` (none = closed under the global
context), abbreviated as in the list at the end of this section.

### C01 Segment diameter stays within [0.88 sigma, sigma) and shrinks with temperature

hs_diameter over RNum; bounds of exp and monotonicity.

Status: proved.

* `C01_one_diameter_per_component` (P_Basic; R1,R2,R3,R4)
* `C01_bounds` (P_Basic; R1,R2,R3,R4)
* `C01_decreasing` (P_Basic; R1,R2,R3,R4)

### C02 Extensivity of the residual Helmholtz energy

All contributions and the state constructor; densities and mole fractions are unchanged by scaling, moles and volume scale.

Status: proved.

* `C02_contribution_extensive` (P_Select; R1,R2,R3,R4)
* `C02_residual_extensive` (P_Select; R1,R2,R3,R4)

### C03 Relabelling components does not change the Helmholtz energy

from_records, subset by a permutation, all contributions. Loops are rewritten as symmetric sums (Spec.v) and sums are invariant under permutation; the Newton iteration is relabelled step by step (F_Perm).

Status: partial. Every contribution other than the quadrupole is invariant, including cross-association for any number of components (C03_cross_association, linear solver exact); the quadrupole contribution is not (C03_quadrupole_refuted) and is covered under equal diameters of the quadrupolar components (C03_residual_partial).

* `C03_cross_association` (P_Cross; R1,R2,R3,R4)
* `C03_residual_partial` (P_Cross; R1,R2,R3,R4)
* `C03_contribution` (P_Lump; R1,R2,R3,R4)
* `C03_quadrupole_partial` (P_Lump; R1,R2,R3,R4)
* `C03_residual_self_partial` (P_Lump; R1,R2,R3,R4)
* `C03_quadrupole_refuted` (P_Lump; R1,R2,R3,R4 F)

### C04 A component with zero moles has no influence

subset by an index list containing all present components. Sums over the absent components vanish; the mass-action law has the same solution and the solver is close to it.

Status: partial. Exact for at most one associating component (C04_residual_self_partial). With cross-association the two energies agree within the tolerance of the solver when the accepted iterates are positive (C04_residual_partial); C04_solvable removes that hypothesis for weak association and for equal sites. Order-preserving selection.

* `C04_residual_partial` (P_Cross; R1,R2,R3,R4)
* `C04_contribution` (P_Lump; R1,R2,R3,R4)
* `C04_quadrupole` (P_Lump; R1,R2,R3,R4)
* `C04_residual_self_partial` (P_Lump; R1,R2,R3,R4)
* `C04_solvable` (P_Split; R1,R2,R3,R4 F)

### C05 Splitting a component into identical pseudo-components does not change the Helmholtz energy

Mixture of copies against the mixture with summed amounts (F_Lump); same route as C04.

Status: partial. Exact for at most one associating component (C05_residual_self_partial). With cross-association within the tolerance of the solver (C05_residual_partial, C05_solvable); C05_one_associating splits the only associating component into any number of copies up to 1000 at default options. False for components with sites of one kind only (C05_one_kind_of_sites_refuted).

* `C05_residual_partial` (P_Cross; R1,R2,R3,R4)
* `C05_contribution` (P_Lump; R1,R2,R3,R4)
* `C05_quadrupole` (P_Lump; R1,R2,R3,R4)
* `C05_residual_self_partial` (P_Lump; R1,R2,R3,R4)
* `C05_solvable` (P_Split; R1,R2,R3,R4 F)
* `C05_one_associating` (P_Split; R1,R2,R3,R4 F)
* `C05_one_kind_of_sites_refuted` (P_Split; R1,R2,R3,R4 F)

### C06 Ideal gas limit

All contributions; limits with Coquelicot.

Status: proved. C06_residual assumes that the leading orders of the polar Pade denominators do not all cancel; C06_residual_warm discharges this for T >= epsilon_k and m >= 1 of the polar components.

* `C06_hard_sphere` (P_Limit; R1,R2,R3,R4)
* `C06_hard_chain` (P_Limit; R1,R2,R3,R4)
* `C06_dispersion` (P_Limit; R1,R2,R3,R4)
* `C06_dipole` (P_Limit; R1,R2,R3,R4)
* `C06_quadrupole` (P_Limit; R1,R2,R3,R4)
* `C06_dipole_quadrupole` (P_Limit; R1,R2,R3,R4)
* `C06_association` (P_Limit; R1,R2,R3,R4)
* `C06_cross_association` (P_Limit; R1,R2,R3,R4)
* `C06_residual` (P_Limit; R1,R2,R3,R4)
* `C06_residual_warm` (P_Limit; R1,R2,R3,R4)

### C07 Finite results for every physical state

XNum instance; logical relation between XNum and RNum with side conditions, then bounds that establish the side conditions.

Status: partial. Finite, and equal to the real-number value, for hard sphere, hard chain, dispersion (all physical states), polar terms away from the pole of the Pade approximant (no pole for T >= epsilon_k, m >= 1 and packing fraction <= 0.74, with quadrupoles >= 0.22, with both >= 0.44), one associating component with na > 0, cross-association whose iteration accepts positive fractions. False otherwise: the pole gives infinity (C07_quadrupole_refuted), na = 0 gives NaN (C07_association_refuted), and two associating components with different site numbers give NaN at an ordinary liquid state because the default start leads to a root with negative entries (C07_cross_association_refuted). Overflow and rounding are not modelled.

* `C07_parameters` (P_Finite; R1,R2,R3,R4)
* `C07_hard_sphere` (P_Finite; R1,R2,R3,R4)
* `C07_hard_chain` (P_Finite; R1,R2,R3,R4)
* `C07_dispersion` (P_Finite; R1,R2,R3,R4)
* `C07_dipole` (P_Finite; R1,R2,R3,R4)
* `C07_quadrupole` (P_Finite; R1,R2,R3,R4)
* `C07_dipole_quadrupole` (P_Finite; R1,R2,R3,R4)
* `C07_association` (P_Finite; R1,R2,R3,R4)
* `C07_residual` (P_Finite; R1,R2,R3,R4)
* `C07_cross_association` (P_Finite; R1,R2,R3,R4)
* `C07_dipole_warm` (P_Finite2; R1,R2,R3,R4 F)
* `C07_quadrupole_warm` (P_Finite2; R1,R2,R3,R4 F)
* `C07_dipole_quadrupole_warm` (P_Finite2; R1,R2,R3,R4 F)
* `C07_residual_warm` (P_Finite2; R1,R2,R3,R4 F)
* `C07_quadrupole_refuted` (P_Finite2; R1,R2,R3,R4 F)
* `C07_association_nan` (P_Finite2; R1,R2,R3,R4)
* `C07_association_refuted` (P_Finite2; R1,R2,R3,R4 F)
* `C07_cross_association_refuted` (P_NonPhys; R1,R2,R3,R4 F)

### C08 Dual-number evaluation yields the true derivative

Nested DualOf instance; logical relation between nested dual numbers and functions with partial derivatives of every order (F_Level), transferred through all contributions. For two or more associating components a second level (continuity in the start vector, F_Cont) gives the derivatives of the routine as it runs, as a limit in the tolerance (P_Dual4). The excluded switch points are not a weakness of the proof: P_Switch.v takes the last volume at which the association strength times the density of water exceeds 2^-26, and shows that the energy is discontinuous there (the expansion and the closed form differ by 5 d^3 in their defining equation).

Status: partial. For n-fold nested dual numbers (Dual64, HyperDual64, Dual3 as the symmetric case): every coefficient is the corresponding partial derivative, for every contribution and the residual with at most one associating component, away from poles of the polar terms and from the switch of the association term. With two or more associating components (C08_cross_residual): the value the code returns from its own start, stopped by its tolerance on the real parts, has every derivative within any eps of the true one once the tolerance is small, provided the Newton iterates stay positive; C08_weak_association and C08_equal_sites discharge that proviso. At the switch of the association term the claim is false (C08_switch_refuted): water at 350 K has a volume where the energy jumps and has no derivative, while the seeded evaluation returns a result. Missing: an explicit bound at the default tolerance.

* `C08_hard_sphere` (P_Dual; R1,R2,R3,R4)
* `C08_hard_chain` (P_Dual; R1,R2,R3,R4)
* `C08_dispersion` (P_Dual; R1,R2,R3,R4)
* `C08_dipole` (P_Dual; R1,R2,R3,R4)
* `C08_quadrupole` (P_Dual; R1,R2,R3,R4)
* `C08_dipole_quadrupole` (P_Dual; R1,R2,R3,R4)
* `C08_association` (P_Dual; R1,R2,R3,R4)
* `C08_residual` (P_Dual; R1,R2,R3,R4)
* `C08_directional` (P_Dual2; R1,R2,R3,R4)
* `C08_pressure` (P_Dual2; R1,R2,R3,R4)
* `C08_entropy` (P_Dual2; R1,R2,R3,R4)
* `C08_chemical_potential` (P_Dual2; R1,R2,R3,R4)
* `C08_cross_residual` (P_Dual4; R1,R2,R3,R4)
* `C08_weak_association` (P_Dual4; R1,R2,R3,R4)
* `C08_equal_sites` (P_Dual4; R1,R2,R3,R4)
* `C08_switch_refuted` (P_Switch; R1,R2,R3,R4 F)

### C09 Bulk Helmholtz energy density of the functional equals the equation of state

Contributions of the functional at the weighted densities of a homogeneous fluid against the contributions of the equation of state per volume.

Status: partial. Holds for at most one quadrupolar component, dq35, total density above f64::EPSILON and (one component) m >= 1 with at most one kind of moment: exactly for packing fraction >= 1e-5 and within 6/pi zeta2^3 1e-24 below. False otherwise: C09_two_quadrupoles_refuted, C09_short_chain_refuted, C37_functional_refuted, C10_dipole_quadrupole_refuted. The FMT functional of mixtures, the ideal chain term and the convolution are modelled from the external crate.

* `C09_chain` (P_Dft; R1,R2,R3,R4)
* `C09_attraction` (P_Dft; R1,R2,R3,R4)
* `C09_association` (P_Dft; R1,R2,R3,R4)
* `C09_hard_sphere` (P_Dft; R1,R2,R3,R4)
* `C09_hard_sphere_dilute` (P_Dft; R1,R2,R3,R4)
* `C09_mixture` (P_Dft; R1,R2,R3,R4)
* `C09_mixture_dilute` (P_Dft; R1,R2,R3,R4)
* `C09_pure` (P_Dft; R1,R2,R3,R4)
* `C09_two_quadrupoles_refuted` (P_DftR; R1,R2,R3,R4 F)
* `C09_short_chain_refuted` (P_DftR; R1,R2,R3,R4 F)

### C10 The specialised pure-component functional agrees with the general functional

Pure-component functionals against the general ones, in the bulk and at every point of a density profile.

Status: partial. Holds for m >= 1 and not both moments (C10_total); false otherwise (C10_dipole_quadrupole_refuted, C09_short_chain_refuted). On every density profile: C10_profile_chain, C10_profile_attraction, C10_profile_association.

* `C10_fmt_association` (P_Dft; R1,R2,R3,R4)
* `C10_chain` (P_Dft; R1,R2,R3,R4)
* `C10_attraction` (P_Dft; R1,R2,R3,R4)
* `C10_total` (P_Dft; R1,R2,R3,R4)
* `C10_dipole_quadrupole_refuted` (P_DftR; R1,R2,R3,R4 F)
* `C10_profile_chain` (P_Profile; R1,R2,R3,R4)
* `C10_profile_attraction` (P_Profile; R1,R2,R3,R4)
* `C10_profile_association` (P_Profile; R1,R2,R3,R4)

### C11 Two-site association fractions solve the mass-action law

assoc_site_frac_ab; quadratic equation, error of the expansion by comparison.

Status: proved. Exact above the low-density switch; below it the expansion is accurate, and leaves (0,1] only for an unphysical number of sites (C11_many_sites_refuted).

* `C11_solves_mass_action` (P_Assoc; R1,R2,R3,R4)
* `C11_low_density` (P_Assoc; R1,R2,R3,R4)
* `C11_no_association` (P_Assoc; R1,R2,R3,R4)
* `C11_many_sites_refuted` (P_Assoc; R1,R2,R3,R4)

### C12 One-site association fraction solves the mass-action law

assoc_site_frac_a; counterexample for all inputs above the switch.

Status: partial. Holds up to the low-density switch (C12_low_density_partial); above it the closed form exceeds 2 for every input, so the property is false there (C12_above_switch_refuted, C12_refuted).

* `C12_low_density_partial` (P_Assoc; R1,R2,R3,R4)
* `C12_above_switch_refuted` (P_Assoc; R1,R2,R3,R4)
* `C12_refuted` (P_Assoc; R1,R2,R3,R4)

### C13 An accepted cross-association solve is a converged one

cross-association routine as a fuel loop over an arbitrary exact linear solver; induction over the iterations, invariants for convergence. The counterexample at the default start follows the six Newton steps of a shipped mixture by interval arithmetic over a closed form of the step for two components (F_Track, F_Nonanol, P_NonPhys).

Status: proved. Proved for at least one iteration. Zero iterations accept the start vector unchecked (C13_zero_iterations_refuted) and acceptance does not imply positive fractions (C13_negative_fractions_refuted), as stated in the property. Convergence to the physical solution from the default start is proved for weak association and for equal sites (C13_weak_association, C13_equal_sites, C13_solvable). In general it is false, even for shipped parameters with default options: C13_default_start_refuted.

* `C13_any_number` (P_Assoc; none)
* `C13_vanishing_density` (P_Assoc; none)
* `C13_start_vector_kept` (P_Assoc; none)
* `C13_zero_iterations` (P_Assoc; none)
* `C13_accepted` (P_Assoc; R1,R2,R3,R4)
* `C13_rejected` (P_Assoc; R1,R2,R3,R4)
* `C13_update_defined` (P_Assoc; R1,R2,R3,R4)
* `C13_singular_only_unphysical` (P_Assoc; R1,R2,R3,R4)
* `C13_outcome` (P_Assoc; R1,R2,R3,R4)
* `C13_accuracy` (P_Assoc; R1,R2,R3,R4)
* `C13_equation_of_state` (P_Assoc; R1,R2,R3,R4)
* `C13_any_root_accepted` (P_Assoc2; R1,R2,R3,R4)
* `C13_negative_fractions_refuted` (P_Assoc2; R1,R2,R3,R4 F)
* `C13_zero_iterations_refuted` (P_Assoc2; R1,R2,R3,R4 F)
* `C13_exact_start` (P_Assoc2; R1,R2,R3,R4)
* `C13_invariant` (P_Converge; R1,R2,R3,R4)
* `C13_weak_association` (P_Converge; R1,R2,R3,R4)
* `C13_equal_sites` (P_Converge; R1,R2,R3,R4)
* `C13_weak_default` (P_Converge; R1,R2,R3,R4 F)
* `C13_equal_default` (P_Converge; R1,R2,R3,R4 F)
* `C13_association_term` (P_Cross; R1,R2,R3,R4)
* `C13_default_start_refuted` (P_NonPhys; R1,R2,R3,R4 F)
* `C13_solvable` (P_Split; R1,R2,R3,R4 F)
* `C13_residual_returned` (P_Split; R1,R2,R3,R4 F)

### C14 Cross-association equations have exactly one physical solution and generalise the two-site solution

Mass-action equations of Spec.v; existence by a monotone scheme, uniqueness by a maximum argument, fixed points of the Newton step by linear algebra.

Status: proved.

* `C14_exists_unique` (P_Assoc2; R1,R2,R3,R4)
* `C14_published_law` (P_Assoc2; R1,R2,R3,R4)
* `C14_fixed_points` (P_Assoc2; R1,R2,R3,R4)
* `C14_one_component` (P_Assoc2; R1,R2,R3,R4)

### C15 Cross-association derivatives are implicit derivatives

Newton steps over n-fold nested dual numbers; implicit function theorem of every order. F_Cont, F_Perturb and F_DualRun carry this over to starts that are only close to the solution, so that the tolerance test is covered.

Status: proved. c dual Newton steps started at the real solution give every partial derivative of order below 2^c of the exact site fractions; the code's counts give all orders it needs. C15_default_start: the whole routine, from the start vector the code uses and stopped by the tolerance test on real parts, gives every derivative within any eps for small enough tolerance, whenever the iterates stay positive. Linear solver over dual numbers is an exact solver (lu_dual); gaussK_lu_dual shows one exists.

* `C15_newton_derivatives` (P_Dual3; R1,R2,R3,R4)
* `C15_all_orders` (P_Dual3; R1,R2,R3,R4)
* `C15_first_derivative` (P_Dual3; R1,R2,R3,R4)
* `C15_cross_association` (P_Dual3; R1,R2,R3,R4)
* `C15_start_exists` (P_Dual3; R1,R2,R3,R4)
* `C15_default_start` (P_Dual4; R1,R2,R3,R4)

### C16 Combining rules of from_records

from_records; list lemmas. Pure constructor in P_Pure.v (C16_new_pure).

Status: proved. The constructor of a pure component never panics and keeps the component's parameters on the diagonal (C16_new_pure).

* `C16_pure_values` (P_Params; R1,R2,R3,R4)
* `C16_moments` (P_Params; R1,R2,R3,R4)
* `C16_combining_rules` (P_Params; R1,R2,R3,R4)
* `C16_symmetric` (P_Params; R1,R2,R3,R4)
* `C16_diagonal` (P_Params; R1,R2,R3,R4)
* `C16_cross_association_iff` (P_Params; R1,R2,R3,R4)
* `C16_panics_iff` (P_Params; R1,R2,R3,R4)
* `C16_new_pure` (P_Pure; R1,R2,R3,R4)

### C17 Polar and associating index sets

from_records; filter lemmas.

Status: proved.

* `C17_index_sets` (P_Params; R1,R2,R3,R4)

### C18 subset is a homomorphism

subset; list lemmas. One and two selected components in P_Pure.v.

Status: proved. Selecting one or two components gives the pure component or the binary mixture with their interaction parameter (C18_subset_one, C18_subset_two).

* `C18_subset_from_records` (P_Params; none)
* `C18_subset_panics` (P_Params; none)
* `C18_subset_all` (P_Params; none)
* `C18_subset_compose` (P_Params; none)
* `C18_eos_subset` (P_Params; none)
* `C18_functional_subset` (P_Params; none)
* `C18_subset_one` (P_Pure; none)
* `C18_subset_two` (P_Pure; none)

### C19 Contribution selection is complete and minimal

with_options and evaluate_residual; case analysis plus vanishing lemmas.

Status: proved.

* `C19_contributions` (P_Select; R1,R2,R3,R4)
* `C19_names_distinct` (P_Select; R1,R2,R3,R4)
* `C19_residual_is_sum` (P_Select; R1,R2,R3,R4)
* `C19_left_out_is_zero` (P_Select; R1,R2,R3,R4)

### C20 Maximum density

compute_max_density of both models; inequalities.

Status: proved.

* `C20_positive` (P_Basic; R1,R2,R3,R4)
* `C20_intensive` (P_Basic; R1,R2,R3,R4)
* `C20_packing` (P_Basic; R1,R2,R3,R4)
* `C20_functional_agrees` (P_Basic; R1,R2,R3,R4)

### C21 Signs of the contributions

Closed forms; inequalities on sums and logarithms.

Status: proved.

* `C21_hard_sphere` (P_Basic; R1,R2,R3,R4)
* `C21_contact_value` (P_Basic; R1,R2,R3,R4)
* `C21_chain` (P_Basic; R1,R2,R3,R4)
* `C21_chain_below_one` (P_Basic; R1,R2,R3,R4)
* `C21_association` (P_Basic; R1,R2,R3,R4)

### C22 Group-contribution records are additive

from_segments; sums over lists.

Status: proved.

* `C22_conservation` (P_Segments; R1,R2,R3,R4)
* `C22_optional_parameters` (P_Segments; R1,R2,R3,R4)
* `C22_transport_available` (P_Segments; R1,R2,R3,R4)
* `C22_transport_rules` (P_Segments; R1,R2,R3,R4)
* `C22_order` (P_Segments; R1,R2,R3,R4)
* `C22_grouping` (P_Segments; R1,R2,R3,R4)
* `C22_single_segment` (P_Segments; R1,R2,R3,R4)
* `C22_averages` (P_Segments; R1,R2,R3,R4)
* `C22_nested` (P_Segments; R1,R2,R3,R4)
* `C22_binary` (P_Segments; R1,R2,R3,R4)

### C23 Group-contribution transport coefficients do not depend on the grouping of equal segments

from_segments; counterexample.

Status: partial. Viscosity, diffusion and the first three thermal-conductivity coefficients are independent of the grouping; the fourth is not (C23_grouping_refuted), and diffusion coefficients of the segments are discarded (C23_diffusion_refuted).

* `C23_grouping_partial` (P_Segments; R1,R2,R3,R4)
* `C23_fourth_thermal_coefficient` (P_Segments; R1,R2,R3,R4)
* `C23_grouping_refuted` (P_Segments; R1,R2,R3,R4)
* `C23_diffusion_zero` (P_Segments; R1,R2,R3,R4)
* `C23_diffusion_refuted` (P_Segments; R1,R2,R3,R4)

### C24 Availability of transport correlations

Transport tables of from_records and the correlations; case analysis.

Status: proved.

* `C24_coefficients_available` (P_Params; none)
* `C24_viscosity_panics` (P_Transport; R1,R2,R3,R4)
* `C24_pure_correlations_panic` (P_Transport; R1,R2,R3,R4)
* `C24_pure_correlations` (P_Transport; R1,R2,R3,R4)

### C25 Diffusion and thermal conductivity are restricted to pure components

Case analysis.

Status: proved.

* `C25_mixtures_rejected` (P_Transport; R1,R2,R3,R4)
* `C25_pure_accepted` (P_Transport; R1,R2,R3,R4)

### C26 Viscosity mixing is consistent

Wilke mixing rule; sums.

Status: proved.

* `C26_wilke` (P_Transport; R1,R2,R3,R4)
* `C26_positive` (P_Transport; R1,R2,R3,R4 F)
* `C26_intensive` (P_Transport; R1,R2,R3,R4)
* `C26_identical` (P_Transport; R1,R2,R3,R4 F)
* `C26_pure` (P_Transport; R1,R2,R3,R4 F)
* `C26_regrouping` (P_Transport; R1,R2,R3,R4)
* `C26_correlation_regrouping` (P_Transport; R1,R2,R3,R4)
* `C26_relabelling` (P_Transport; R1,R2,R3,R4)
* `C26_correlation_identical` (P_Transport; R1,R2,R3,R4)

### C27 Collision integrals and transport references are positive

Collision integrals; signs and interval bounds.

Status: proved.

* `C27_omega11_positive` (P_Transport; R1,R2,R3,R4)
* `C27_omega11_decreasing` (P_Transport; R1,R2,R3,R4)
* `C27_omega22_positive` (P_Transport; R1,R2,R3,R4 F)
* `C27_diffusion_reference` (P_Transport; R1,R2,R3,R4)
* `C27_thermal_conductivity_chapman_enskog` (P_Transport; R1,R2,R3,R4 F)
* `C27_thermal_conductivity_reference` (P_Transport; R1,R2,R3,R4 F)

### C28 Transport properties respect the options of the equation of state

thermal_conductivity_reference with an arbitrary entropy functional.

Status: proved. The entropy is an arbitrary functional determined by the residual Helmholtz energy at physical states (State and molar_entropy are external).

* `C28_residual_independent_of_options` (P_Transport; R1,R2,R3,R4)
* `C28_options_respected` (P_Transport; R1,R2,R3,R4)

### C29 JSON round trip of records

Derived serde of PcSaftRecord on JSON trees.

Status: proved.

* `C29_round_trip` (P_Text; none)
* `C29_injective` (P_Text; none)
* `C29_written` (P_Text; none)
* `C29_mandatory` (P_Text; none)
* `C29_missing_mandatory` (P_Text; none)
* `C29_optional` (P_Text; none)
* `C29_key_order` (P_Text; none)
* `C29_unknown_keys` (P_Text; none)
* `C29_duplicates_rejected` (P_Text; none)
* `C29_binary` (P_Text; none)

### C30 Text representations are faithful

Formatters with abstract number formatting.

Status: proved.

* `C30_record_display` (P_Text; none)
* `C30_record_mentions` (P_Text; none)
* `C30_markdown` (P_Text; none)
* `C30_params_display` (P_Text; R1,R2,R3,R4)

### C31 FMT guard of the pure functional

Guard of the pure FMT functional on whole profiles.

Status: proved.

* `C31_guard` (P_Fmt; R1,R2,R3,R4)
* `C31_other_version_panics` (P_Fmt; R1,R2,R3,R4)
* `C31_never_reached` (P_Fmt; R1,R2,R3,R4)

### C32 Taylor switch of the FMT f3 term

Taylor switch; remainder of the logarithm.

Status: proved.

* `C32_taylor_error` (P_Fmt; R1,R2,R3,R4)
* `C32_switch_harmless` (P_Fmt; R1,R2,R3,R4)

### C33 Pair potential

pair_potential; algebra.

Status: proved.

* `C33_zero_at_sigma` (P_Fmt; R1,R2,R3,R4)
* `C33_repulsive_inside` (P_Fmt; R1,R2,R3,R4)
* `C33_attractive_outside` (P_Fmt; R1,R2,R3,R4)
* `C33_lower_bound` (P_Fmt; R1,R2,R3,R4)
* `C33_minimum` (P_Fmt; R1,R2,R3,R4)
* `C33_monotone` (P_Fmt; R1,R2,R3,R4)

### C34 QSPR ideal gas model

QSPR model and Joback choice.

Status: proved. The class is that of the mixture, so the term of a component depends on the other components (C34_other_components_refuted).

* `C34_one_class` (P_Transport; R1,R2,R3,R4)
* `C34_correlation` (P_Transport; R1,R2,R3,R4)
* `C34_reference_temperature` (P_Transport; R1,R2,R3,R4)
* `C34_model_choice` (P_Transport; R1,R2,R3,R4)
* `C34_other_components_refuted` (P_Transport; R1,R2,R3,R4 F)

### C35 Dispersion compressibility term is well defined

C1 in the equation of state and both functionals; polynomial inequality.

Status: proved.

* `C35_equation_of_state` (P_Basic; R1,R2,R3,R4)
* `C35_functional` (P_Basic; R1,R2,R3,R4)
* `C35_pure_functional` (P_Basic; R1,R2,R3,R4)
* `C35_bounds` (P_Basic; R1,R2,R3,R4)

### C36 Binary interaction parameters act only on dispersion

from_records and all contributions.

Status: proved.

* `C36_only_dispersion` (P_Select; R1,R2,R3,R4)
* `C36_through_epsilon` (P_Select; R1,R2,R3,R4)
* `C36_residual` (P_Select; R1,R2,R3,R4)
* `C36_cross_vanishes` (P_Select; R1,R2,R3,R4)

### C37 dq_variant

Options, parser, dipole-quadrupole term, functional.

Status: partial. Equation of state proved; the functional ignores the option (C37_functional_ignores), so the last sentence is false (C37_functional_refuted).

* `C37_functional_ignores` (P_DftR; R1,R2,R3,R4)
* `C37_functional_refuted` (P_DftR; R1,R2,R3,R4 F)
* `C37_only_dq` (P_Select; R1,R2,R3,R4)
* `C37_variants_coincide` (P_Select; R1,R2,R3,R4)
* `C37_names` (P_Select; none)

### C38 Grid evaluation of cross-association is history-consistent

Induction over the grid points with the warm-start vector as state.

Status: proved.

* `C38_success` (P_Assoc2; none)
* `C38_failure` (P_Assoc2; none)
* `C38_empty_point` (P_Assoc2; none)
* `C38_point_converged` (P_Assoc2; R1,R2,R3,R4)
* `C38_history` (P_Assoc2; R1,R2,R3,R4)

### C39 Contributions equal the published expressions

All contributions against Spec.v.

Status: partial. All contributions equal the published expressions except the quadrupole-quadrupole term (C39_quadrupole_refuted).

* `C39_hard_sphere` (P_Basic; R1,R2,R3,R4)
* `C39_hard_chain` (P_Basic; R1,R2,R3,R4)
* `C39_dispersion` (P_Basic; R1,R2,R3,R4)
* `C39_dipole` (P_Basic; R1,R2,R3,R4)
* `C39_quadrupole_partial` (P_Basic; R1,R2,R3,R4)
* `C39_dipole_quadrupole` (P_Basic; R1,R2,R3,R4)
* `C39_association` (P_Basic; R1,R2,R3,R4)
* `C39_quadrupole_refuted` (P_Basic; R1,R2,R3,R4 F)

### C40 Virial coefficients

Evaluation at zero density over nested dual numbers whose base is XNum, so that 0/0 is NaN and the guards of the polar terms are taken as in the code (F_Virial.v): each contribution represents a function of density that is truncated at second order for the polar terms and lacks cross-association. Taylor expansion (F_Taylor.v) and comparison with the expansion of the Padé approximants (F_Virial2.v) give the limits.

Status: partial. Finite derivatives, second coefficient and its temperature derivative proved for all mixtures; third coefficient proved for mixtures without polar components. Refuted: third coefficient of polar fluids (C40_third_virial_refuted; the exact shift is C40_third_virial_shift), independence of dividing an associating component (C40_split_refuted).

* `C40_second_virial` (P_Virial; R1,R2,R3,R4)
* `C40_third_virial_shift` (P_Virial; R1,R2,R3,R4)
* `C40_finite` (P_Virial; R1,R2,R3,R4)
* `C40_no_cross_association` (P_Virial; R1,R2,R3,R4)
* `C40_second_virial_warm` (P_Virial; R1,R2,R3,R4)
* `C40_temperature_derivative` (P_Virial; R1,R2,R3,R4)
* `C40_third_virial` (P_Virial; R1,R2,R3,R4)
* `C40_third_virial_refuted` (P_Virial; R1,R2,R3,R4 F)
* `C40_split_refuted` (P_Virial; R1,R2,R3,R4 F)

### C41 Exact derivatives of the Helmholtz energy functional

The contributions of M_Dft.v are run over nested dual numbers whose base is XNum (F_DftT.v, F_DftT2.v, F_DftT3.v: transfer of every function); the coefficients are partial derivatives in the sense of Coquelicot of the run over the reals (`represents`). Switch points (cut-off densities, poles of the Pade approximants) are excluded by explicit inequalities over the specification `rho_eff`, `xi_all`, `bonding`, ... Several associating components: F_CrossDual.v runs the Newton iteration of the cross-association routine over nested dual numbers with the LU solver specified by exactness; P_DftX.v ties it to the implicit function of the mass-action law and threads the start vector through the points of the profile (points below the smallest density reset it to one).

Status: proved. Chain, attraction, association and all specialised contributions at every regular point. Several associating components (C41_cross_point, C41_cross_profile): the iteration over dual numbers, started from the fractions of the previous grid point, gives the derivatives of the energy at the solution of the inhomogeneous mass-action law to any accuracy for a small enough tolerance; the hypothesis that the iteration over the reals is accepted with positive fractions is discharged for weak association (C41_weak_profile). The fundamental-measure term of mixtures belongs to feos_dft and is not modelled.

* `C41_chain` (P_DftD; R1,R2,R3,R4)
* `C41_attraction` (P_DftD; R1,R2,R3,R4)
* `C41_association` (P_DftD; R1,R2,R3,R4)
* `C41_pure_chain` (P_DftD; R1,R2,R3,R4)
* `C41_pure_attraction` (P_DftD; R1,R2,R3,R4)
* `C41_pure_fmt_association` (P_DftD; R1,R2,R3,R4)
* `C41_cross_point` (P_DftX; R1,R2,R3,R4)
* `C41_cross_profile` (P_DftX; R1,R2,R3,R4)
* `C41_weak_profile` (P_DftX; R1,R2,R3,R4)

### C42 Empty grid points of a density profile

The same runs at weighted densities zero. The chain term has a kink there (absolute value of the averaged density), so its theorem gives a smooth function that agrees with the functional for non-negative averaged densities. Refutation over XNum, where 0/0 is NaN. Several associating components (P_DftE.v): bounds -C s^2 <= energy <= -k s^2 for the solution of the mass-action law at s times any direction of weighted densities, from 1 - 1/x <= ln x - x/2 + 1/2 <= (x - 1)/2.

Status: partial. Every contribution with at most one associating component; with several the routine returns zero with all derivatives zero (C42_cross_association), so that value and first derivatives are right (the exact energy vanishes like the square of the amount, C42_cross_energy) and the second derivatives are not (C42_cross_second_order, C42_second_derivative_refuted). Refuted for the antisymmetrised version of the specialised functional (C42_antisymmetric_refuted).

* `C42_chain` (P_DftD; R1,R2,R3,R4)
* `C42_attraction` (P_DftD; R1,R2,R3,R4)
* `C42_association` (P_DftD; R1,R2,R3,R4)
* `C42_pure_fmt_association` (P_DftD; R1,R2,R3,R4)
* `C42_pure_chain` (P_DftD; R1,R2,R3,R4)
* `C42_pure_attraction` (P_DftD; R1,R2,R3,R4)
* `C42_antisymmetric_refuted` (P_DftD; R1,R2,R3,R4)
* `C42_cross_energy` (P_DftE; R1,R2,R3,R4)
* `C42_cross_second_order` (P_DftE; R1,R2,R3,R4)
* `C42_cross_association` (P_DftE; R1,R2,R3,R4)
* `C42_second_derivative_refuted` (P_DftE; R1,R2,R3,R4)

### C43 The functional of a uniform fluid has the derivatives of the equation of state

Both sides are related to plain evaluations along a path of states (F_DftU, F_DftU2): near the state the functional in the bulk limit equals the energy over the volume (the lemmas behind C09 and C10), so the dual numbers are equal because related functions determine all coefficients. The cross-association routine is the same computation on both sides, so it cancels without assuming convergence.

Status: proved. For mixtures whose equation of state has finite derivatives, which is itself proved with at most one associating component (C43_derivatives, C43_pure) and for weakly or equally bonded mixtures of several (C08_weak_association). The conditions on quadrupoles and on the specialised functional are those of C09 and C10, where the functional differs.

* `C43_mixture` (P_DftU; R1,R2,R3,R4)
* `C43_fixed_volume` (P_DftU; R1,R2,R3,R4)
* `C43_derivatives` (P_DftU; R1,R2,R3,R4)
* `C43_pure` (P_DftU; R1,R2,R3,R4)
* `C43_pressure` (P_DftU; R1,R2,R3,R4)
* `C43_chemical_potential` (P_DftU; R1,R2,R3,R4)

### C44 Data reported by the equation of state and the functional

Accessors of both models in M_Access; compared with the records directly. The Joback polynomials belong to feos_core and are written from their definition (`ext_joback`); the refutation evaluates both ideal-gas terms of propane at 400 K with interval arithmetic.

Status: partial. Data and selections proved; the ideal-gas terms agree when all records are complete (C44_ideal_gas) and differ otherwise (C44_missing_records, C44_ideal_gas_refuted).

* `C44_molar_weight` (P_Access; R1,R2,R3,R4)
* `C44_fluid_parameters` (P_Access; R1,R2,R3,R4)
* `C44_component_index` (P_Access; R1,R2,R3,R4)
* `C44_ideal_gas` (P_Access; R1,R2,R3,R4)
* `C44_missing_records` (P_Access; R1,R2,R3,R4)
* `C44_ideal_gas_refuted` (P_Access; R1,R2,R3,R4 F)
* `C44_subset` (P_Access; R1,R2,R3,R4)

### C45 Functional contributions on a density profile equal the published expressions

Weighted densities at a point for arbitrary convolutions (M_Profile); published expressions in SpecDft, written from the papers; each contribution rewritten to it. `C45_uniform` ties the profile evaluation to the bulk one of C09. The chain term keeps the machine constant 2^-52 the code adds to the weighted density; the White Bear term below the series switch (packing 1e-5) is within 1e-24 of the published one (`C45_white_bear_dilute`). Several associating components (P_ProfileX.v): the inhomogeneous law has exactly one solution (`C45_cross_law`), and the term returned at each point of the profile is its energy up to the error of the tolerance.

Status: proved. Hard-sphere terms of mixtures are in feos_dft and not modelled. Association: one component exactly; several components within the error bound of the tolerance (C45_cross_association; no hypothesis on the iteration for weak association, C45_cross_weak). The dispersion term with at most one quadrupolar component (finding on the mixed polar term). The weights of the square-gradient approximation are covered by C45_attraction_range and C45_same_averages.

* `C45_chain` (P_Profile; R1,R2,R3,R4)
* `C45_attraction` (P_Profile; R1,R2,R3,R4)
* `C45_association_strength` (P_Profile; R1,R2,R3,R4)
* `C45_association` (P_Profile; R1,R2,R3,R4)
* `C45_white_bear` (P_Profile; R1,R2,R3,R4)
* `C45_white_bear_dilute` (P_Profile; R1,R2,R3,R4)
* `C45_antisymmetrised` (P_Profile; R1,R2,R3,R4)
* `C45_pure_chain` (P_Profile; R1,R2,R3,R4)
* `C45_uniform` (P_Profile; R1,R2,R3,R4)
* `C45_attraction_range` (P_Profile2; R1,R2,R3,R4)
* `C45_attraction_point` (P_Profile2; R1,R2,R3,R4)
* `C45_same_averages` (P_Profile2; R1,R2,R3,R4)
* `C45_uniform_point` (P_Profile2; R1,R2,R3,R4)
* `C45_cross_law` (P_ProfileX; R1,R2,R3,R4)
* `C45_cross_association` (P_ProfileX; R1,R2,R3,R4)
* `C45_cross_weak` (P_ProfileX; R1,R2,R3,R4)

### C46 First and second derivatives satisfy the Euler and Gibbs-Duhem relations

The model is evaluated over classes of functions closed under sums, products and composition (F_Class): functions of several variables whose directional derivatives are linear in the direction. The transfer lemmas of C08 then say that the residual energy belongs to the class (F_LevelRes); the numbers are tied to the dual-number evaluations by uniqueness of derivatives; Euler and Gibbs-Duhem follow from extensivity (C02).

Status: proved. At most one associating component (as C08).

* `C46_total_differential` (P_Thermo; R1,R2,R3,R4)
* `C46_euler` (P_Thermo; R1,R2,R3,R4)
* `C46_gibbs_duhem` (P_Thermo; R1,R2,R3,R4)

### C47 Second derivatives are symmetric (Maxwell relations)

As C46 with the class of functions of two variables whose mixed derivatives exist in both orders and agree.

Status: proved. At most one associating component (as C08).

* `C47_second_derivatives` (P_Thermo; R1,R2,R3,R4)
* `C47_maxwell` (P_Thermo; R1,R2,R3,R4)

### C48 The shipped substance parameters are usable

Shipped.v is generated from the JSON files; M_Shipped reads an entry with the model of serde deserialisation (C26). Reading commutes with the interpretation of literals, so the conditions are decided over rational numbers by computation and carried to the reals by monotonicity; the consequences for mixtures are instances of C06, C07, C09, C10, C17 for any list of sound records.

Status: proved. The decimal numbers of the files are taken as real numbers; reading JSON text is not modelled, the files enter as lists of key-value pairs (Shipped.v). Argon (0.9285 segments) is the one exception for the functional: C48_functional_refuted. Finiteness needs at most one associating substance: 1-nonanol with three-site water gives NaN (C48_cross_association_refuted).

* `C48_cross_association_refuted` (P_NonPhys; R1,R2,R3,R4 F)
* `C48_substances` (P_Shipped; R1,R2,R3,R4)
* `C48_files` (P_Shipped; R1,R2,R3,R4)
* `C48_mixture` (P_Shipped; R1,R2,R3,R4)
* `C48_ideal_gas_limit` (P_Shipped; R1,R2,R3,R4)
* `C48_finite` (P_Shipped; R1,R2,R3,R4 F)
* `C48_functional` (P_Shipped; R1,R2,R3,R4)
* `C48_functional_refuted` (P_Shipped; R1,R2,R3,R4 F)

### C49 The shipped group contribution files give usable molecules

As C48; the record of a molecule is expressed by totals over its groups (C22), decided over rational numbers for the listed molecules; molecules of any size by a linear bound per group (methyl +a, quaternary carbon -2a, every group a positive rest).

Status: proved. Groups are passed one by one with multiplicity one (C22 shows that grouping does not matter). The functional of ethylene (0.74 segments) is outside C49_functional.

* `C49_molecules` (P_Shipped2; R1,R2,R3,R4)
* `C49_any_molecule` (P_Shipped2; R1,R2,R3,R4)
* `C49_any_molecule_refuted` (P_Shipped2; R1,R2,R3,R4)
* `C49_short_molecule_refuted` (P_Shipped2; R1,R2,R3,R4)
* `C49_mixture` (P_Shipped2; R1,R2,R3,R4)
* `C49_functional` (P_Shipped2; R1,R2,R3,R4)
* `C49_groups` (P_Shipped2; R1,R2,R3,R4)
* `C49_unknown_group` (P_Shipped2; R1,R2,R3,R4)
* `C49_distinct_groups` (P_Shipped2; none)

### C50 The Python constructors take their documented arguments and build the documented objects

M_Python models Python values, the binding of positional and keyword arguments to a signature with defaults, the conversions to f64, usize, options and arrays, and the three constructors. C50_call characterises binding by a relation on positions and names; order, defaults and rejections follow from it. Constructor and getters are compared name by name through a table of the documented parameters; repr uses C30_record_display.

Status: proved. Argument binding follows pyo3's rules (trusted); the methods generated by feos_core's macros (JSON, segment records, states) are not modelled. repr: the text of numbers is a parameter; the theorem assumes that Python reads the texts of the record's own numbers back (true for finite f64; Rust's inf and NaN are no Python literals).

* `C50_call` (P_Python; none)
* `C50_keyword_order` (P_Python; none)
* `C50_positional_or_keyword` (P_Python; none)
* `C50_default` (P_Python; none)
* `C50_unknown_keyword` (P_Python; none)
* `C50_missing` (P_Python; none)
* `C50_given_twice` (P_Python; none)
* `C50_too_many` (P_Python; none)
* `C50_record` (P_Python; none)
* `C50_record_values` (P_Python; none)
* `C50_record_copy` (P_Python; none)
* `C50_repr` (P_Python; none)
* `C50_eos_default` (P_Python; none)
* `C50_functional_default` (P_Python; none)
* `C50_eos` (P_Python; none)
* `C50_functional` (P_Python; none)
* `C50_same_options` (P_Python; none)
* `C50_bad_options` (P_Python; none)
* `C50_parameters` (P_Python; none)

### C51 The association energy is a maximum, and stronger or more bonds never raise the Helmholtz energy

The trial energy is the Michelsen-Hendriks functional, concave in the logarithms of the fractions; C51_maximum follows from exp(s) >= 1 + s site by site and the balance of bonds. The comparison of two mixtures evaluates the first trial energy at the second optimum; association strengths are monotone in the parameters by C39's Delta. Returned values are compared through C13_association_term.

Status: proved. Exact for the law of mass action and for one associating component above the low-density switch; for the returned value of several components up to the solver error of C13 (accepted iterates positive).

* `C51_maximum` (P_Strength; R1,R2,R3,R4)
* `C51_stronger` (P_Strength; R1,R2,R3,R4)
* `C51_association` (P_Strength; R1,R2,R3,R4)
* `C51_residual` (P_Strength; R1,R2,R3,R4)
* `C51_one_component` (P_Strength; R1,R2,R3,R4)
* `C51_bounds` (P_Strength; R1,R2,R3,R4)
* `C51_returned_bounds` (P_Strength; R1,R2,R3,R4)

### C52 Rounding to f64 does not spoil diameters, hard-sphere, chain, dispersion and polar energies, free-volume factors and bonded fractions

The model functions are instantiated at BNum, where every operation is Flocq's rounding to 53 bits (round to nearest even) of the exact one and the library functions are arbitrary within one unit in the last place. Errors are propagated as relative errors (F_Round.v); the fraction uses the conditioning of the mass-action equation, the free-volume factor the bound n^2 on its numerator. The refutations compute roundings exactly by binades. Sums over components use Olver's relative precision, closed under products, quotients and sums of positive terms (F_Round2.v); the difference in the hard-sphere term is bounded through zeta2^3 <= zeta0 zeta3^2 (P_RoundH.v); ln g is bounded in absolute terms (P_RoundC.v). Dispersion: errors relative to a magnitude (all signs positive) in powers of 1/(1 - u/(1-eta)), closed under sums, products and rounding (F_Round3.v); the inverse compressibility loses at most a factor 21 by cancellation, shown with polynomials positive in the Bernstein basis (P_RoundA.v). Polar terms: the second- and third-order coefficients with errors relative to the sums of absolute values of their polynomials, then the Pade approximant, whose conditioning is the ratio c of those magnitudes to |A2 - A3| (P_RoundP.v, one polar component). For several polar components the lists of terms accumulated by the loops are related entry by entry to the exact terms and their magnitudes, and the loops to the double and triple sums; the cube root in the segment mean is assumed accurate to one unit in the last place (P_RoundQ.v). Association of several components (P_RoundX.v): a computed Newton step from a point that passed the convergence test is compared with the exact root. The computed gradient and matrix are relatively precise; the linear solver is assumed to have row-wise small residuals (met by the rounded solution of Gaussian elimination); the step squares the residual, so only roundoff divided by the smallest fraction remains; a solution of the equations is itself always accepted (C52_cross_root). Whole association contribution (P_RoundY.v): the strength's error follows from relative precision of the contact value and the conditioning of exp(x)-1 (the model and the code use exp_m1); roots of two laws of mass action with relatively close coefficients differ by a factor 1/(1 - e/s) (monotone sub- and supersolution argument), which carries the error of strengths and densities to the fractions and the energy. A start that solves the rounded law up to a residual below the tolerance is accepted (C52_cross_accept), used for the concrete case. Whole residual (P_RoundZ.v, P_RoundT.v): the contribution of one associating component is taken from the strength's and the fraction's errors; the residual is the left-to-right sum the code forms, so its error is the sum of the contributions' errors plus (number of contributions + 1) roundoffs of the sum of their magnitudes. The instances are stated for parameters built by from_records from arbitrary records.

Status: partial. Diameter, free-volume factor, hard-sphere, hard-chain and dispersion contributions and the dipole, quadrupole and dipole-quadrupole contributions of mixtures, and the range and error of the bonded fraction are proved. False parts, refuted by witnesses: just above the low-density switch the bonded fraction is off by 36 percent; for unequal site numbers and strong bonds the fraction is zero; the second fraction becomes zero for very strong bonds; at vanishing density the chain contribution is returned as zero. Association of several components: the returned fractions and energy are bounded against the exact solution of the law of mass action with the strengths as computed, whenever the iterate that passed the convergence test is bounded below (C52_cross_association). The association strength is bounded against its exact value (C52_association_strength) and the whole contribution of several components against the exact law with exact strengths (C52_cross_contribution). The whole residual Helmholtz energy, summed as the code sums it, is bounded for every list of contributions given bounds of each (C52_sum), for mixtures without polar or associating components (C52_residual) and with one associating component with equal site numbers (C52_residual_assoc, C52_pure_contribution). Not covered: overflow and underflow; rounding of the combining rule that produces the stored bonding volumes.

* `C52_equal_sites` (P_Round; R1,R2,R3,R4)
* `C52_low_density` (P_Round; R1,R2,R3,R4)
* `C52_fraction_range` (P_Round; R1,R2,R3,R4)
* `C52_switch_refuted` (P_Round; R1,R2,R3,R4 F)
* `C52_strong_bonds_refuted` (P_Round; R1,R2,R3,R4)
* `C52_second_fraction_refuted` (P_Round; R1,R2,R3,R4)
* `C52_dispersion` (P_RoundA; R1,R2,R3,R4)
* `C52_hard_chain` (P_RoundC; R1,R2,R3,R4)
* `C52_low_density_chain_refuted` (P_RoundC; R1,R2,R3,R4)
* `C52_diameter` (P_RoundD; R1,R2,R3,R4)
* `C52_free_volume` (P_RoundD; R1,R2,R3,R4)
* `C52_free_volume_digits` (P_RoundD; R1,R2,R3,R4)
* `C52_hard_sphere` (P_RoundH; R1,R2,R3,R4)
* `C52_dipole` (P_RoundP; R1,R2,R3,R4)
* `C52_quadrupole` (P_RoundP; R1,R2,R3,R4)
* `C52_dipole_mixture` (P_RoundQ; R1,R2,R3,R4)
* `C52_quadrupole_mixture` (P_RoundQ; R1,R2,R3,R4)
* `C52_dipole_quadrupole` (P_RoundQ; R1,R2,R3,R4)
* `C52_sum` (P_RoundT; R1,R2,R3,R4)
* `C52_residual` (P_RoundT; R1,R2,R3,R4)
* `C52_residual_assoc` (P_RoundT; R1,R2,R3,R4)
* `C52_cross_association` (P_RoundX; R1,R2,R3,R4)
* `C52_cross_root` (P_RoundX; R1,R2,R3,R4)
* `C52_association_strength` (P_RoundY; R1,R2,R3,R4)
* `C52_cross_contribution` (P_RoundY; R1,R2,R3,R4)
* `C52_cross_accept` (P_RoundY; R1,R2,R3,R4)
* `C52_pure_contribution` (P_RoundZ; R1,R2,R3,R4)

### C53 High-temperature limit is the athermal hard-chain fluid

The contributions are replaced by their published form (F_Contrib.v), in which temperature enters only through energies divided by it; with all energies multiplied by s = 1/T each becomes a function of s that is continuous at 0 (P_HighT.v). Pade terms: second and third order are s^2 A(s) and s^3 B(s), with A(0) nonzero or A identically zero.

Status: proved. Each contribution is a function of 1/T continuous at zero; for the polar terms after factoring out the powers of 1/T, with the pair integral positive at the athermal packing fraction. Several associating components are outside the statement.

* `C53_hard_sphere` (P_HighT; R1,R2,R3,R4)
* `C53_hard_chain` (P_HighT; R1,R2,R3,R4)
* `C53_dispersion` (P_HighT; R1,R2,R3,R4)
* `C53_dipole` (P_HighT; R1,R2,R3,R4 F)
* `C53_quadrupole` (P_HighT; R1,R2,R3,R4 F)
* `C53_dipole_quadrupole` (P_HighT; R1,R2,R3,R4 F)
* `C53_association` (P_HighT; R1,R2,R3,R4)
* `C53_residual` (P_HighT; R1,R2,R3,R4 F)
* `C53_high_temperature` (P_HighT; R1,R2,R3,R4 F)

### C54 Law of corresponding states: results do not depend on the units of length and energy

The rescaled records give a parameter set whose mixture is the scaled one (mix_scaled); every term of the published form is homogeneous in the two scale factors (P_Units.v). The refutation takes water and a copy of it: the energy at liquid density is negative by the convergence theorem of C13, and exactly zero after rescaling lengths by a million.

Status: partial. Proved for at most one associating component. False for several: the association energy is dropped below a fixed number density of 2.2e-16 per cubic unit of length, which depends on the unit (C54_several_refuted).

* `C54_hard_sphere` (P_Units; R1,R2,R3,R4)
* `C54_hard_chain` (P_Units; R1,R2,R3,R4)
* `C54_dispersion` (P_Units; R1,R2,R3,R4)
* `C54_dipole` (P_Units; R1,R2,R3,R4)
* `C54_quadrupole` (P_Units; R1,R2,R3,R4)
* `C54_dipole_quadrupole` (P_Units; R1,R2,R3,R4)
* `C54_association` (P_Units; R1,R2,R3,R4)
* `C54_residual` (P_Units; R1,R2,R3,R4)
* `C54_max_density` (P_Units; R1,R2,R3,R4)
* `C54_several_refuted` (P_Units; R1,R2,R3,R4 F)

### C55 Close packing: the residual Helmholtz energy grows beyond every bound

With w = 1/(1 - packing fraction), the textbook forms of the contributions are bounded in terms of w: hard spheres from below by A w^2 - B w, the contact value from above by G w^3, unbonded fractions from below by the law of mass action or the series below the switch, dispersion and polar terms by continuity in the density (P_Close.v).

Status: proved. Residual for non-polar components from records (C55_close_packing) and for polar ones whose Pade denominators do not vanish at close packing (C55_residual); contributions separately.

* `C55_hard_sphere` (P_Close; R1,R2,R3,R4)
* `C55_hard_chain` (P_Close; R1,R2,R3,R4)
* `C55_dispersion` (P_Close; R1,R2,R3,R4)
* `C55_association` (P_Close; R1,R2,R3,R4)
* `C55_residual` (P_Close; R1,R2,R3,R4)
* `C55_close_packing` (P_Close; R1,R2,R3,R4)

### C56 Every pressure has a volume: the search for a state at given pressure has a solution

The residual energy is differentiable in the volume with the derivative delivered by dual numbers (C08), diverges at close packing (C55) and vanishes at low density (C06). The Gibbs energy therefore has a minimum over all volumes, and its derivative vanishes there; monotonicity of the contact value in the density keeps compressed states away from the solver's switch (P_Npt.v).

Status: proved. C56_npt for non-polar, non-associating mixtures; C56_regular for polar ones without poles; C56_compressed for one associating component on the dense side of the solver's switch (the computed energy jumps at the switch, so no statement across it is possible).

* `C56_regular` (P_Npt; R1,R2,R3,R4)
* `C56_npt` (P_Npt; R1,R2,R3,R4)
* `C56_compressed` (P_Npt; R1,R2,R3,R4)

### C57 Vapour-liquid equilibrium of a pure fluid exists where it should and nowhere else

Maxwell construction: the minima of the Gibbs energy over the volumes below and above the unstable one exist for every pressure (C55, C06); the supremum of the pressures at which the upper minimum is lower makes them equal. Pressures follow from vanishing derivatives, chemical potentials from extensivity (C02) and the dual-number theorems (C08) (P_Vle.v). Low temperature: the energy times the squared temperature tends to the second-order dispersion term at full diameter, which is concave at low density (P_Cold.v). High temperature: the pure-fluid terms reduce to Carnahan-Starling, chain and dispersion functions of the packing fraction; the hard-chain pressure rises with slope at least one and the dispersion terms, twice differentiable with bounded derivatives on [0,1), are scaled by strengths of order 1/T (P_Hot.v).

Status: proved. C57_unstable (energy above a chord) and C57_rising_pressure (pressure increasing with volume), with butane at 250 K; C57_low_temperature; C57_high_temperature, C57_supercritical and C57_one_volume. The two limiting temperatures are shown to exist, not computed.

* `C57_low_temperature` (P_Cold; R1,R2,R3,R4)
* `C57_high_temperature` (P_Hot; R1,R2,R3,R4)
* `C57_supercritical` (P_Hot; R1,R2,R3,R4)
* `C57_one_volume` (P_Hot; R1,R2,R3,R4)
* `C57_unstable` (P_Vle; R1,R2,R3,R4)
* `C57_rising_pressure` (P_Vle; R1,R2,R3,R4)

### C58 Every attracting pure fluid has a critical point

In terms of the packing fraction the slope of the pressure is the inverse compressibility of the hard chain minus two functions scaled by strengths continuous in temperature (P_Hot.v). The critical temperature is the supremum of those at which the slope is negative somewhere (bounded by C57_high_temperature, non-empty by C57_low_temperature). Compactness (slope positive near zero density and near close packing) gives a zero, which is a minimum of the slope. The slope is a rational function of the packing fraction and so cannot vanish on an interval, which makes the monotonicity strict (P_Critical.v).

Status: proved. C58_critical_point and C58_spinodal, with butane as the case. Uniqueness of the critical volume is not claimed.

* `C58_critical_point` (P_Critical; R1,R2,R3,R4)
* `C58_spinodal` (P_Critical; R1,R2,R3,R4)

### C59 One volume per temperature and pressure above the critical point, one liquid below

C58_critical_point with existence from C56. Refutation: interval evaluation of the pressure in terms of the packing fraction at four points, intermediate value theorem (P_Loops.v).

Status: partial. The first sentence is C59_above_critical. The second is false: C59_one_liquid_refuted gives, for butane at 100 K and every reduced pressure up to 0.28 per cubic Angstrom (about 3900 bar), three volumes with packing fraction above 0.39. This is a property of the published equation (the dispersion polynomials at high packing fraction), which the code evaluates faithfully; 100 K is below the triple point of butane.

* `C59_above_critical` (P_Loops; R1,R2,R3,R4)
* `C59_one_liquid_refuted` (P_Loops; R1,R2,R3,R4 F)

### C60 Closed form of the second virial coefficient, and one Boyle temperature per substance

B_spec is the separate specification. The limit of v times each contribution as v grows is computed from the closed forms (derivative at zero of the contribution as a function of the density) and identified with the coefficient by uniqueness of limits (C40). Pure substances: elementary bounds of exponentials and of the dispersion integrals, interval arithmetic for the polar integrals, intermediate value theorem (P_Boyle.v).

Status: proved. C60_formula for any mixture (with two or more associating components the code has no bonding contribution, see C40). C60_monotone and C60_boyle from the dispersion energy upwards, C60_monotone_nonpolar and C60_boyle_nonpolar at all temperatures; association of the substance with itself included. The temperature bound is needed: C60_low_temperature_refuted shows that carbon dioxide as shipped has a positive coefficient at 20 K, a negative one at 60 K and a positive one at 1000 K.

* `C60_formula` (P_Boyle; R1,R2,R3,R4)
* `C60_monotone` (P_Boyle; R1,R2,R3,R4 F)
* `C60_boyle` (P_Boyle; R1,R2,R3,R4 F)
* `C60_monotone_nonpolar` (P_Boyle; R1,R2,R3,R4 F)
* `C60_boyle_nonpolar` (P_Boyle; R1,R2,R3,R4 F)
* `C60_low_temperature_refuted` (P_Boyle; R1,R2,R3,R4 F)

### C61 Second virial coefficient is quadratic in the mole fractions

Closure of quadratic forms under sums and products of linear forms; refutation by interval evaluation of the third difference at four compositions (P_Boyle.v).

Status: partial. C61_equal_segments proves it for mixtures of any number of components with equal segment numbers. In general it is false: C61_quadratic_refuted for methane and butane as shipped at 300 K (third difference of about 14.5 cubic Angstrom), because the dispersion integrals depend on the mean segment number of the mixture. This is a property of the published equation, which the code evaluates faithfully.

* `C61_equal_segments` (P_Boyle; R1,R2,R3,R4)
* `C61_quadratic_refuted` (P_Boyle; R1,R2,R3,R4 F)

### C62 The vapour at low pressure

The residual energy of the dilute fluid is v Phi(1/v) with Phi twice differentiable around zero and three times at zero: the part without the polar fractions from the evaluation at zero density with three infinitesimals (C40), the polar fractions as quotients of polynomials with a non-zero denominator. Phi and its first derivative vanish at zero, its second derivative is twice the second virial coefficient; hence the pressure as a function of the density has slope near one, and intermediate value theorem, monotonicity and the expansion give the claim. The derivative of the code is that of Phi by C08 (P_Vapour.v).

Status: proved. C62_vapour under the condition that no polar contribution present has a vanishing leading coefficient, C62_vapour_warm for polar components with at least one segment above their dispersion energy; nonpolar mixtures at all temperatures. Two or more associating components are outside (regular_point).

* `C62_vapour` (P_Vapour; R1,R2,R3,R4)
* `C62_vapour_warm` (P_Vapour; R1,R2,R3,R4)

Abbreviations: R1 = `ClassicalDedekindReals.sig_forall_dec`; R2 = `ClassicalDedekindReals.sig_not_dec`; R3 = `FunctionalExtensionality.functional_extensionality_dep`; R4 = `Classical_Prop.classic`.
F = the following axioms of the standard library, through the tactic `interval`: `FloatAxioms.Prim2SF_SF2Prim`, `FloatAxioms.Prim2SF_valid`, `FloatAxioms.SF2Prim_Prim2SF`, `FloatAxioms.abs_spec`, `FloatAxioms.add_spec`, `FloatAxioms.classify_spec`, `FloatAxioms.compare_spec`, `FloatAxioms.div_spec`, `FloatAxioms.eqb_spec`, `FloatAxioms.frshiftexp_spec`, `FloatAxioms.ldshiftexp_spec`, `FloatAxioms.ltb_spec`, `FloatAxioms.mul_spec`, `FloatAxioms.next_down_spec`, `FloatAxioms.next_up_spec`, `FloatAxioms.normfr_mantissa_spec`, `FloatAxioms.of_uint63_spec`, `FloatAxioms.opp_spec`, `FloatAxioms.sqrt_spec`, `FloatAxioms.sub_spec`, `PrimFloat.abs`, `PrimFloat.add`, `PrimFloat.classify`, `PrimFloat.compare`, `PrimFloat.div`, `PrimFloat.eqb`, `PrimFloat.float`, `PrimFloat.frshiftexp`, `PrimFloat.ldshiftexp`, `PrimFloat.ltb`, `PrimFloat.mul`, `PrimFloat.next_down`, `PrimFloat.next_up`, `PrimFloat.normfr_mantissa`, `PrimFloat.of_uint63`, `PrimFloat.opp`, `PrimFloat.sqrt`, `PrimFloat.sub`, `PrimInt63.add`, `PrimInt63.addc`, `PrimInt63.addcarryc`, `PrimInt63.addmuldiv`, `PrimInt63.compare`, `PrimInt63.div`, `PrimInt63.diveucl`, `PrimInt63.diveucl_21`, `PrimInt63.eqb`, `PrimInt63.head0`, `PrimInt63.int`, `PrimInt63.land`, `PrimInt63.leb`, `PrimInt63.lor`, `PrimInt63.lsl`, `PrimInt63.lsr`, `PrimInt63.ltb`, `PrimInt63.lxor`, `PrimInt63.mod`, `PrimInt63.mul`, `PrimInt63.mulc`, `PrimInt63.sub`, `PrimInt63.subc`, `PrimInt63.subcarryc`, `PrimInt63.tail0`, `Uint63.add_spec`, `Uint63.addc_def_spec`, `Uint63.addcarryc_def_spec`, `Uint63.addmuldiv_def_spec`, `Uint63.compare_def_spec`, `Uint63.div_spec`, `Uint63.diveucl_21_spec`, `Uint63.diveucl_def_spec`, `Uint63.eqb_correct`, `Uint63.eqb_refl`, `Uint63.head0_spec`, `Uint63.land_spec`, `Uint63.leb_spec`, `Uint63.lor_spec`, `Uint63.lsl_spec`, `Uint63.lsr_spec`, `Uint63.ltb_spec`, `Uint63.lxor_spec`, `Uint63.mod_spec`, `Uint63.mul_spec`, `Uint63.mulc_spec`, `Uint63.of_to_Z`, `Uint63.sub_spec`, `Uint63.subc_def_spec`, `Uint63.subcarryc_def_spec`, `Uint63.tail0_spec`.
Other: .

## Testing against wrong programs

`seeded/LOG.jsonl` records edits of the model that imitate realistic bugs (wrong index, sign, exponent,
coefficient, branch, missing factor).  Each was made in a copy of `rocq/` outside this repository; the whole
development was rebuilt with every failing proof replaced by `Admitted`, and the theorems that failed, or that
depend on one that failed, were recorded.  Where a claim was false of the edited model but its theorem still
went through, the theorem was strengthened; the log names it.
