{
 "claims": [
  {
   "property": "C01",
   "status": "proved",
   "theorems": [
    "C01_one_diameter_per_component",
    "C01_bounds",
    "C01_decreasing"
   ],
   "note": ""
  },
  {
   "property": "C02",
   "status": "proved",
   "theorems": [
    "C02_contribution_extensive",
    "C02_residual_extensive"
   ],
   "note": ""
  },
  {
   "property": "C03",
   "status": "partial",
   "theorems": [
    "C03_cross_association",
    "C03_residual_partial",
    "C03_contribution",
    "C03_quadrupole_partial",
    "C03_residual_self_partial",
    "C03_quadrupole_refuted"
   ],
   "note": "Every contribution other than the quadrupole is invariant, including cross-association for any number of components (C03_cross_association, linear solver exact); the quadrupole contribution is not (C03_quadrupole_refuted) and is covered under equal diameters of the quadrupolar components (C03_residual_partial)."
  },
  {
   "property": "C04",
   "status": "partial",
   "theorems": [
    "C04_residual_partial",
    "C04_contribution",
    "C04_quadrupole",
    "C04_residual_self_partial",
    "C04_solvable"
   ],
   "note": "Exact for at most one associating component (C04_residual_self_partial). With cross-association the two energies agree within the tolerance of the solver when the accepted iterates are positive (C04_residual_partial); C04_solvable removes that hypothesis for weak association and for equal sites. Order-preserving selection."
  },
  {
   "property": "C05",
   "status": "partial",
   "theorems": [
    "C05_residual_partial",
    "C05_contribution",
    "C05_quadrupole",
    "C05_residual_self_partial",
    "C05_solvable",
    "C05_one_associating",
    "C05_one_kind_of_sites_refuted"
   ],
   "note": "Exact for at most one associating component (C05_residual_self_partial). With cross-association within the tolerance of the solver (C05_residual_partial, C05_solvable); C05_one_associating splits the only associating component into any number of copies up to 1000 at default options. False for components with sites of one kind only (C05_one_kind_of_sites_refuted)."
  },
  {
   "property": "C06",
   "status": "proved",
   "theorems": [
    "C06_hard_sphere",
    "C06_hard_chain",
    "C06_dispersion",
    "C06_dipole",
    "C06_quadrupole",
    "C06_dipole_quadrupole",
    "C06_association",
    "C06_cross_association",
    "C06_residual",
    "C06_residual_warm"
   ],
   "note": "C06_residual assumes that the leading orders of the polar Pade denominators do not all cancel; C06_residual_warm discharges this for T >= epsilon_k and m >= 1 of the polar components."
  },
  {
   "property": "C07",
   "status": "partial",
   "theorems": [
    "C07_parameters",
    "C07_hard_sphere",
    "C07_hard_chain",
    "C07_dispersion",
    "C07_dipole",
    "C07_quadrupole",
    "C07_dipole_quadrupole",
    "C07_association",
    "C07_residual",
    "C07_cross_association",
    "C07_dipole_warm",
    "C07_quadrupole_warm",
    "C07_dipole_quadrupole_warm",
    "C07_residual_warm",
    "C07_quadrupole_refuted",
    "C07_association_nan",
    "C07_association_refuted",
    "C07_cross_association_refuted"
   ],
   "note": "Finite, and equal to the real-number value, for hard sphere, hard chain, dispersion (all physical states), polar terms away from the pole of the Pade approximant (no pole for T >= epsilon_k, m >= 1 and packing fraction <= 0.74, with quadrupoles >= 0.22, with both >= 0.44), one associating component with na > 0, cross-association whose iteration accepts positive fractions. False otherwise: the pole gives infinity (C07_quadrupole_refuted), na = 0 gives NaN (C07_association_refuted), and two associating components with different site numbers give NaN at an ordinary liquid state because the default start leads to a root with negative entries (C07_cross_association_refuted). Overflow and rounding are not modelled."
  },
  {
   "property": "C08",
   "status": "partial",
   "theorems": [
    "C08_hard_sphere",
    "C08_hard_chain",
    "C08_dispersion",
    "C08_dipole",
    "C08_quadrupole",
    "C08_dipole_quadrupole",
    "C08_association",
    "C08_residual",
    "C08_directional",
    "C08_pressure",
    "C08_entropy",
    "C08_chemical_potential",
    "C08_cross_residual",
    "C08_weak_association",
    "C08_equal_sites",
    "C08_switch_refuted"
   ],
   "note": "For n-fold nested dual numbers (Dual64, HyperDual64, Dual3 as the symmetric case): every coefficient is the corresponding partial derivative, for every contribution and the residual with at most one associating component, away from poles of the polar terms and from the switch of the association term. With two or more associating components (C08_cross_residual): the value the code returns from its own start, stopped by its tolerance on the real parts, has every derivative within any eps of the true one once the tolerance is small, provided the Newton iterates stay positive; C08_weak_association and C08_equal_sites discharge that proviso. At the switch of the association term the claim is false (C08_switch_refuted): water at 350 K has a volume where the energy jumps and has no derivative, while the seeded evaluation returns a result. Missing: an explicit bound at the default tolerance."
  },
  {
   "property": "C09",
   "status": "partial",
   "theorems": [
    "C09_chain",
    "C09_attraction",
    "C09_association",
    "C09_hard_sphere",
    "C09_hard_sphere_dilute",
    "C09_mixture",
    "C09_mixture_dilute",
    "C09_pure",
    "C09_two_quadrupoles_refuted",
    "C09_short_chain_refuted"
   ],
   "note": "Holds for at most one quadrupolar component, dq35, total density above f64::EPSILON and (one component) m >= 1 with at most one kind of moment: exactly for packing fraction >= 1e-5 and within 6/pi zeta2^3 1e-24 below. False otherwise: C09_two_quadrupoles_refuted, C09_short_chain_refuted, C37_functional_refuted, C10_dipole_quadrupole_refuted. The FMT functional of mixtures, the ideal chain term and the convolution are modelled from the external crate."
  },
  {
   "property": "C10",
   "status": "partial",
   "theorems": [
    "C10_fmt_association",
    "C10_chain",
    "C10_attraction",
    "C10_total",
    "C10_dipole_quadrupole_refuted",
    "C10_profile_chain",
    "C10_profile_attraction",
    "C10_profile_association"
   ],
   "note": "Holds for m >= 1 and not both moments (C10_total); false otherwise (C10_dipole_quadrupole_refuted, C09_short_chain_refuted). On every density profile: C10_profile_chain, C10_profile_attraction, C10_profile_association."
  },
  {
   "property": "C11",
   "status": "proved",
   "theorems": [
    "C11_solves_mass_action",
    "C11_low_density",
    "C11_no_association",
    "C11_many_sites_refuted"
   ],
   "note": "Exact above the low-density switch; below it the expansion is accurate, and leaves (0,1] only for an unphysical number of sites (C11_many_sites_refuted)."
  },
  {
   "property": "C12",
   "status": "partial",
   "theorems": [
    "C12_low_density_partial",
    "C12_above_switch_refuted",
    "C12_refuted"
   ],
   "note": "Holds up to the low-density switch (C12_low_density_partial); above it the closed form exceeds 2 for every input, so the property is false there (C12_above_switch_refuted, C12_refuted)."
  },
  {
   "property": "C13",
   "status": "proved",
   "theorems": [
    "C13_any_number",
    "C13_vanishing_density",
    "C13_start_vector_kept",
    "C13_zero_iterations",
    "C13_accepted",
    "C13_rejected",
    "C13_update_defined",
    "C13_singular_only_unphysical",
    "C13_outcome",
    "C13_accuracy",
    "C13_equation_of_state",
    "C13_any_root_accepted",
    "C13_negative_fractions_refuted",
    "C13_zero_iterations_refuted",
    "C13_exact_start",
    "C13_invariant",
    "C13_weak_association",
    "C13_equal_sites",
    "C13_weak_default",
    "C13_equal_default",
    "C13_association_term",
    "C13_default_start_refuted",
    "C13_solvable",
    "C13_residual_returned"
   ],
   "note": "Proved for at least one iteration. Zero iterations accept the start vector unchecked (C13_zero_iterations_refuted) and acceptance does not imply positive fractions (C13_negative_fractions_refuted), as stated in the property. Convergence to the physical solution from the default start is proved for weak association and for equal sites (C13_weak_association, C13_equal_sites, C13_solvable). In general it is false, even for shipped parameters with default options: C13_default_start_refuted."
  },
  {
   "property": "C14",
   "status": "proved",
   "theorems": [
    "C14_exists_unique",
    "C14_published_law",
    "C14_fixed_points",
    "C14_one_component"
   ],
   "note": ""
  },
  {
   "property": "C15",
   "status": "proved",
   "theorems": [
    "C15_newton_derivatives",
    "C15_all_orders",
    "C15_first_derivative",
    "C15_cross_association",
    "C15_start_exists",
    "C15_default_start"
   ],
   "note": "c dual Newton steps started at the real solution give every partial derivative of order below 2^c of the exact site fractions; the code's counts give all orders it needs. C15_default_start: the whole routine, from the start vector the code uses and stopped by the tolerance test on real parts, gives every derivative within any eps for small enough tolerance, whenever the iterates stay positive. Linear solver over dual numbers is an exact solver (lu_dual); gaussK_lu_dual shows one exists."
  },
  {
   "property": "C16",
   "status": "proved",
   "theorems": [
    "C16_pure_values",
    "C16_moments",
    "C16_combining_rules",
    "C16_symmetric",
    "C16_diagonal",
    "C16_cross_association_iff",
    "C16_panics_iff",
    "C16_new_pure"
   ],
   "note": "The constructor of a pure component never panics and keeps the component's parameters on the diagonal (C16_new_pure)."
  },
  {
   "property": "C17",
   "status": "proved",
   "theorems": [
    "C17_index_sets"
   ],
   "note": ""
  },
  {
   "property": "C18",
   "status": "proved",
   "theorems": [
    "C18_subset_from_records",
    "C18_subset_panics",
    "C18_subset_all",
    "C18_subset_compose",
    "C18_eos_subset",
    "C18_functional_subset",
    "C18_subset_one",
    "C18_subset_two"
   ],
   "note": "Selecting one or two components gives the pure component or the binary mixture with their interaction parameter (C18_subset_one, C18_subset_two)."
  },
  {
   "property": "C19",
   "status": "proved",
   "theorems": [
    "C19_contributions",
    "C19_names_distinct",
    "C19_residual_is_sum",
    "C19_left_out_is_zero"
   ],
   "note": ""
  },
  {
   "property": "C20",
   "status": "proved",
   "theorems": [
    "C20_positive",
    "C20_intensive",
    "C20_packing",
    "C20_functional_agrees"
   ],
   "note": ""
  },
  {
   "property": "C21",
   "status": "proved",
   "theorems": [
    "C21_hard_sphere",
    "C21_contact_value",
    "C21_chain",
    "C21_chain_below_one",
    "C21_association"
   ],
   "note": ""
  },
  {
   "property": "C22",
   "status": "proved",
   "theorems": [
    "C22_conservation",
    "C22_optional_parameters",
    "C22_transport_available",
    "C22_transport_rules",
    "C22_order",
    "C22_grouping",
    "C22_single_segment",
    "C22_averages",
    "C22_nested",
    "C22_binary"
   ],
   "note": ""
  },
  {
   "property": "C23",
   "status": "partial",
   "theorems": [
    "C23_grouping_partial",
    "C23_fourth_thermal_coefficient",
    "C23_grouping_refuted",
    "C23_diffusion_zero",
    "C23_diffusion_refuted"
   ],
   "note": "Viscosity, diffusion and the first three thermal-conductivity coefficients are independent of the grouping; the fourth is not (C23_grouping_refuted), and diffusion coefficients of the segments are discarded (C23_diffusion_refuted)."
  },
  {
   "property": "C24",
   "status": "proved",
   "theorems": [
    "C24_coefficients_available",
    "C24_viscosity_panics",
    "C24_pure_correlations_panic",
    "C24_pure_correlations"
   ],
   "note": ""
  },
  {
   "property": "C25",
   "status": "proved",
   "theorems": [
    "C25_mixtures_rejected",
    "C25_pure_accepted"
   ],
   "note": ""
  },
  {
   "property": "C26",
   "status": "proved",
   "theorems": [
    "C26_wilke",
    "C26_positive",
    "C26_intensive",
    "C26_identical",
    "C26_pure",
    "C26_regrouping",
    "C26_correlation_regrouping",
    "C26_relabelling",
    "C26_correlation_identical"
   ],
   "note": ""
  },
  {
   "property": "C27",
   "status": "proved",
   "theorems": [
    "C27_omega11_positive",
    "C27_omega11_decreasing",
    "C27_omega22_positive",
    "C27_diffusion_reference",
    "C27_thermal_conductivity_chapman_enskog",
    "C27_thermal_conductivity_reference"
   ],
   "note": ""
  },
  {
   "property": "C28",
   "status": "proved",
   "theorems": [
    "C28_residual_independent_of_options",
    "C28_options_respected"
   ],
   "note": "The entropy is an arbitrary functional determined by the residual Helmholtz energy at physical states (State and molar_entropy are external)."
  },
  {
   "property": "C29",
   "status": "proved",
   "theorems": [
    "C29_round_trip",
    "C29_injective",
    "C29_written",
    "C29_mandatory",
    "C29_missing_mandatory",
    "C29_optional",
    "C29_key_order",
    "C29_unknown_keys",
    "C29_duplicates_rejected",
    "C29_binary"
   ],
   "note": ""
  },
  {
   "property": "C30",
   "status": "proved",
   "theorems": [
    "C30_record_display",
    "C30_record_mentions",
    "C30_markdown",
    "C30_params_display"
   ],
   "note": ""
  },
  {
   "property": "C31",
   "status": "proved",
   "theorems": [
    "C31_guard",
    "C31_other_version_panics",
    "C31_never_reached"
   ],
   "note": ""
  },
  {
   "property": "C32",
   "status": "proved",
   "theorems": [
    "C32_taylor_error",
    "C32_switch_harmless"
   ],
   "note": ""
  },
  {
   "property": "C33",
   "status": "proved",
   "theorems": [
    "C33_zero_at_sigma",
    "C33_repulsive_inside",
    "C33_attractive_outside",
    "C33_lower_bound",
    "C33_minimum",
    "C33_monotone"
   ],
   "note": ""
  },
  {
   "property": "C34",
   "status": "proved",
   "theorems": [
    "C34_one_class",
    "C34_correlation",
    "C34_reference_temperature",
    "C34_model_choice",
    "C34_other_components_refuted"
   ],
   "note": "The class is that of the mixture, so the term of a component depends on the other components (C34_other_components_refuted)."
  },
  {
   "property": "C35",
   "status": "proved",
   "theorems": [
    "C35_equation_of_state",
    "C35_functional",
    "C35_pure_functional",
    "C35_bounds"
   ],
   "note": ""
  },
  {
   "property": "C36",
   "status": "proved",
   "theorems": [
    "C36_only_dispersion",
    "C36_through_epsilon",
    "C36_residual",
    "C36_cross_vanishes"
   ],
   "note": ""
  },
  {
   "property": "C37",
   "status": "partial",
   "theorems": [
    "C37_functional_ignores",
    "C37_functional_refuted",
    "C37_only_dq",
    "C37_variants_coincide",
    "C37_names"
   ],
   "note": "Equation of state proved; the functional ignores the option (C37_functional_ignores), so the last sentence is false (C37_functional_refuted)."
  },
  {
   "property": "C38",
   "status": "proved",
   "theorems": [
    "C38_success",
    "C38_failure",
    "C38_empty_point",
    "C38_point_converged",
    "C38_history"
   ],
   "note": ""
  },
  {
   "property": "C39",
   "status": "partial",
   "theorems": [
    "C39_hard_sphere",
    "C39_hard_chain",
    "C39_dispersion",
    "C39_dipole",
    "C39_quadrupole_partial",
    "C39_dipole_quadrupole",
    "C39_association",
    "C39_quadrupole_refuted"
   ],
   "note": "All contributions equal the published expressions except the quadrupole-quadrupole term (C39_quadrupole_refuted)."
  },
  {
   "property": "C40",
   "status": "partial",
   "theorems": [
    "C40_second_virial",
    "C40_third_virial_shift",
    "C40_finite",
    "C40_no_cross_association",
    "C40_second_virial_warm",
    "C40_temperature_derivative",
    "C40_third_virial",
    "C40_third_virial_refuted",
    "C40_split_refuted"
   ],
   "note": "Finite derivatives, second coefficient and its temperature derivative proved for all mixtures; third coefficient proved for mixtures without polar components. Refuted: third coefficient of polar fluids (C40_third_virial_refuted; the exact shift is C40_third_virial_shift), independence of dividing an associating component (C40_split_refuted)."
  },
  {
   "property": "C41",
   "status": "proved",
   "theorems": [
    "C41_chain",
    "C41_attraction",
    "C41_association",
    "C41_pure_chain",
    "C41_pure_attraction",
    "C41_pure_fmt_association",
    "C41_cross_point",
    "C41_cross_profile",
    "C41_weak_profile"
   ],
   "note": "Chain, attraction, association and all specialised contributions at every regular point. Several associating components (C41_cross_point, C41_cross_profile): the iteration over dual numbers, started from the fractions of the previous grid point, gives the derivatives of the energy at the solution of the inhomogeneous mass-action law to any accuracy for a small enough tolerance; the hypothesis that the iteration over the reals is accepted with positive fractions is discharged for weak association (C41_weak_profile). The fundamental-measure term of mixtures belongs to feos_dft and is not modelled."
  },
  {
   "property": "C42",
   "status": "partial",
   "theorems": [
    "C42_chain",
    "C42_attraction",
    "C42_association",
    "C42_pure_fmt_association",
    "C42_pure_chain",
    "C42_pure_attraction",
    "C42_antisymmetric_refuted",
    "C42_cross_energy",
    "C42_cross_second_order",
    "C42_cross_association",
    "C42_second_derivative_refuted"
   ],
   "note": "Every contribution with at most one associating component; with several the routine returns zero with all derivatives zero (C42_cross_association), so that value and first derivatives are right (the exact energy vanishes like the square of the amount, C42_cross_energy) and the second derivatives are not (C42_cross_second_order, C42_second_derivative_refuted). Refuted for the antisymmetrised version of the specialised functional (C42_antisymmetric_refuted)."
  },
  {
   "property": "C43",
   "status": "proved",
   "theorems": [
    "C43_mixture",
    "C43_fixed_volume",
    "C43_derivatives",
    "C43_pure",
    "C43_pressure",
    "C43_chemical_potential"
   ],
   "note": "For mixtures whose equation of state has finite derivatives, which is itself proved with at most one associating component (C43_derivatives, C43_pure) and for weakly or equally bonded mixtures of several (C08_weak_association). The conditions on quadrupoles and on the specialised functional are those of C09 and C10, where the functional differs."
  },
  {
   "property": "C44",
   "status": "partial",
   "theorems": [
    "C44_molar_weight",
    "C44_fluid_parameters",
    "C44_component_index",
    "C44_ideal_gas",
    "C44_missing_records",
    "C44_ideal_gas_refuted",
    "C44_subset"
   ],
   "note": "Data and selections proved; the ideal-gas terms agree when all records are complete (C44_ideal_gas) and differ otherwise (C44_missing_records, C44_ideal_gas_refuted)."
  },
  {
   "property": "C45",
   "status": "proved",
   "theorems": [
    "C45_chain",
    "C45_attraction",
    "C45_association_strength",
    "C45_association",
    "C45_white_bear",
    "C45_white_bear_dilute",
    "C45_antisymmetrised",
    "C45_pure_chain",
    "C45_uniform",
    "C45_attraction_range",
    "C45_attraction_point",
    "C45_same_averages",
    "C45_uniform_point",
    "C45_cross_law",
    "C45_cross_association",
    "C45_cross_weak"
   ],
   "note": "Hard-sphere terms of mixtures are in feos_dft and not modelled. Association: one component exactly; several components within the error bound of the tolerance (C45_cross_association; no hypothesis on the iteration for weak association, C45_cross_weak). The dispersion term with at most one quadrupolar component (finding on the mixed polar term). The weights of the square-gradient approximation are covered by C45_attraction_range and C45_same_averages."
  },
  {
   "property": "C46",
   "status": "proved",
   "theorems": [
    "C46_total_differential",
    "C46_euler",
    "C46_gibbs_duhem"
   ],
   "note": "At most one associating component (as C08)."
  },
  {
   "property": "C47",
   "status": "proved",
   "theorems": [
    "C47_second_derivatives",
    "C47_maxwell"
   ],
   "note": "At most one associating component (as C08)."
  },
  {
   "property": "C48",
   "status": "proved",
   "theorems": [
    "C48_cross_association_refuted",
    "C48_substances",
    "C48_files",
    "C48_mixture",
    "C48_ideal_gas_limit",
    "C48_finite",
    "C48_functional",
    "C48_functional_refuted"
   ],
   "note": "The decimal numbers of the files are taken as real numbers; reading JSON text is not modelled, the files enter as lists of key-value pairs (Shipped.v). Argon (0.9285 segments) is the one exception for the functional: C48_functional_refuted. Finiteness needs at most one associating substance: 1-nonanol with three-site water gives NaN (C48_cross_association_refuted)."
  },
  {
   "property": "C49",
   "status": "proved",
   "theorems": [
    "C49_molecules",
    "C49_any_molecule",
    "C49_any_molecule_refuted",
    "C49_short_molecule_refuted",
    "C49_mixture",
    "C49_functional",
    "C49_groups",
    "C49_unknown_group",
    "C49_distinct_groups"
   ],
   "note": "Groups are passed one by one with multiplicity one (C22 shows that grouping does not matter). The functional of ethylene (0.74 segments) is outside C49_functional."
  },
  {
   "property": "C50",
   "status": "proved",
   "theorems": [
    "C50_call",
    "C50_keyword_order",
    "C50_positional_or_keyword",
    "C50_default",
    "C50_unknown_keyword",
    "C50_missing",
    "C50_given_twice",
    "C50_too_many",
    "C50_record",
    "C50_record_values",
    "C50_record_copy",
    "C50_repr",
    "C50_eos_default",
    "C50_functional_default",
    "C50_eos",
    "C50_functional",
    "C50_same_options",
    "C50_bad_options",
    "C50_parameters"
   ],
   "note": "Argument binding follows pyo3's rules (trusted); the methods generated by feos_core's macros (JSON, segment records, states) are not modelled. repr: the text of numbers is a parameter; the theorem assumes that Python reads the texts of the record's own numbers back (true for finite f64; Rust's inf and NaN are no Python literals)."
  },
  {
   "property": "C51",
   "status": "proved",
   "theorems": [
    "C51_maximum",
    "C51_stronger",
    "C51_association",
    "C51_residual",
    "C51_one_component",
    "C51_bounds",
    "C51_returned_bounds"
   ],
   "note": "Exact for the law of mass action and for one associating component above the low-density switch; for the returned value of several components up to the solver error of C13 (accepted iterates positive)."
  },
  {
   "property": "C52",
   "status": "partial",
   "theorems": [
    "C52_equal_sites",
    "C52_low_density",
    "C52_fraction_range",
    "C52_switch_refuted",
    "C52_strong_bonds_refuted",
    "C52_second_fraction_refuted",
    "C52_dispersion",
    "C52_hard_chain",
    "C52_low_density_chain_refuted",
    "C52_diameter",
    "C52_free_volume",
    "C52_free_volume_digits",
    "C52_hard_sphere",
    "C52_dipole",
    "C52_quadrupole",
    "C52_dipole_mixture",
    "C52_quadrupole_mixture",
    "C52_dipole_quadrupole",
    "C52_sum",
    "C52_residual",
    "C52_residual_assoc",
    "C52_cross_association",
    "C52_cross_root",
    "C52_association_strength",
    "C52_cross_contribution",
    "C52_cross_accept",
    "C52_pure_contribution"
   ],
   "note": "Diameter, free-volume factor, hard-sphere, hard-chain and dispersion contributions and the dipole, quadrupole and dipole-quadrupole contributions of mixtures, and the range and error of the bonded fraction are proved. False parts, refuted by witnesses: just above the low-density switch the bonded fraction is off by 36 percent; for unequal site numbers and strong bonds the fraction is zero; the second fraction becomes zero for very strong bonds; at vanishing density the chain contribution is returned as zero. Association of several components: the returned fractions and energy are bounded against the exact solution of the law of mass action with the strengths as computed, whenever the iterate that passed the convergence test is bounded below (C52_cross_association). The association strength is bounded against its exact value (C52_association_strength) and the whole contribution of several components against the exact law with exact strengths (C52_cross_contribution). The whole residual Helmholtz energy, summed as the code sums it, is bounded for every list of contributions given bounds of each (C52_sum), for mixtures without polar or associating components (C52_residual) and with one associating component with equal site numbers (C52_residual_assoc, C52_pure_contribution). Not covered: overflow and underflow; rounding of the combining rule that produces the stored bonding volumes."
  },
  {
   "property": "C53",
   "status": "proved",
   "theorems": [
    "C53_hard_sphere",
    "C53_hard_chain",
    "C53_dispersion",
    "C53_dipole",
    "C53_quadrupole",
    "C53_dipole_quadrupole",
    "C53_association",
    "C53_residual",
    "C53_high_temperature"
   ],
   "note": "Each contribution is a function of 1/T continuous at zero; for the polar terms after factoring out the powers of 1/T, with the pair integral positive at the athermal packing fraction. Several associating components are outside the statement."
  },
  {
   "property": "C54",
   "status": "partial",
   "theorems": [
    "C54_hard_sphere",
    "C54_hard_chain",
    "C54_dispersion",
    "C54_dipole",
    "C54_quadrupole",
    "C54_dipole_quadrupole",
    "C54_association",
    "C54_residual",
    "C54_max_density",
    "C54_several_refuted"
   ],
   "note": "Proved for at most one associating component. False for several: the association energy is dropped below a fixed number density of 2.2e-16 per cubic unit of length, which depends on the unit (C54_several_refuted)."
  },
  {
   "property": "C55",
   "status": "proved",
   "theorems": [
    "C55_hard_sphere",
    "C55_hard_chain",
    "C55_dispersion",
    "C55_association",
    "C55_residual",
    "C55_close_packing"
   ],
   "note": "Residual for non-polar components from records (C55_close_packing) and for polar ones whose Pade denominators do not vanish at close packing (C55_residual); contributions separately."
  },
  {
   "property": "C56",
   "status": "proved",
   "theorems": [
    "C56_regular",
    "C56_npt",
    "C56_compressed"
   ],
   "note": "C56_npt for non-polar, non-associating mixtures; C56_regular for polar ones without poles; C56_compressed for one associating component on the dense side of the solver's switch (the computed energy jumps at the switch, so no statement across it is possible)."
  },
  {
   "property": "C57",
   "status": "proved",
   "theorems": [
    "C57_low_temperature",
    "C57_high_temperature",
    "C57_supercritical",
    "C57_one_volume",
    "C57_unstable",
    "C57_rising_pressure"
   ],
   "note": "C57_unstable (energy above a chord) and C57_rising_pressure (pressure increasing with volume), with butane at 250 K; C57_low_temperature; C57_high_temperature, C57_supercritical and C57_one_volume. The two limiting temperatures are shown to exist, not computed."
  },
  {
   "property": "C58",
   "status": "proved",
   "theorems": [
    "C58_critical_point",
    "C58_spinodal"
   ],
   "note": "C58_critical_point and C58_spinodal, with butane as the case. Uniqueness of the critical volume is not claimed."
  },
  {
   "property": "C59",
   "status": "partial",
   "theorems": [
    "C59_above_critical",
    "C59_one_liquid_refuted"
   ],
   "note": "The first sentence is C59_above_critical. The second is false: C59_one_liquid_refuted gives, for butane at 100 K and every reduced pressure up to 0.28 per cubic Angstrom (about 3900 bar), three volumes with packing fraction above 0.39. This is a property of the published equation (the dispersion polynomials at high packing fraction), which the code evaluates faithfully; 100 K is below the triple point of butane."
  },
  {
   "property": "C60",
   "status": "proved",
   "theorems": [
    "C60_formula",
    "C60_monotone",
    "C60_boyle",
    "C60_monotone_nonpolar",
    "C60_boyle_nonpolar",
    "C60_low_temperature_refuted"
   ],
   "note": "C60_formula for any mixture (with two or more associating components the code has no bonding contribution, see C40). C60_monotone and C60_boyle from the dispersion energy upwards, C60_monotone_nonpolar and C60_boyle_nonpolar at all temperatures; association of the substance with itself included. The temperature bound is needed: C60_low_temperature_refuted shows that carbon dioxide as shipped has a positive coefficient at 20 K, a negative one at 60 K and a positive one at 1000 K."
  },
  {
   "property": "C61",
   "status": "partial",
   "theorems": [
    "C61_equal_segments",
    "C61_quadratic_refuted"
   ],
   "note": "C61_equal_segments proves it for mixtures of any number of components with equal segment numbers. In general it is false: C61_quadratic_refuted for methane and butane as shipped at 300 K (third difference of about 14.5 cubic Angstrom), because the dispersion integrals depend on the mean segment number of the mixture. This is a property of the published equation, which the code evaluates faithfully."
  },
  {
   "property": "C62",
   "status": "proved",
   "theorems": [
    "C62_vapour",
    "C62_vapour_warm"
   ],
   "note": "C62_vapour under the condition that no polar contribution present has a vanishing leading coefficient, C62_vapour_warm for polar components with at least one segment above their dispersion energy; nonpolar mixtures at all temperatures. Two or more associating components are outside (regular_point)."
  }
 ]
}