{"id": "C01", "title": "Segment diameter stays within [0.88 sigma, sigma) and shrinks with temperature", "statement": "For every parameter set and every temperature T>0, hs_diameter(T) returns one diameter per component; for a component with sigma>0 and epsilon_k>0 it satisfies 0.88*sigma < d < sigma, and d strictly decreases when T increases.", "quantifier": "all numbers of components, all sigma>0, epsilon_k>0, all T>0 and all pairs T1<T2", "why_tests_cant": "A test samples a few temperatures and substances; positivity and monotonicity are needed at every iterate of every solver.", "anchors": ["src/eos/hard_sphere.rs: PcSaftParameters::hs_diameter"]}
{"id": "C02", "title": "Extensivity of the residual Helmholtz energy", "statement": "Scaling volume and all mole numbers of a state by the same factor scales the Helmholtz energy of every PC-SAFT contribution, and of their sum, by exactly that factor.", "quantifier": "all parameter sets, temperatures, volumes, mole vectors and scale factors > 0", "why_tests_cant": "Homogeneity of degree one is a universally quantified functional equation; tests only see isolated points.", "anchors": ["src/eos/hard_sphere.rs", "src/eos/hard_chain.rs", "src/eos/dispersion.rs", "src/eos/polar.rs", "src/eos/association.rs", "src/eos/mod.rs: PcSaft::residual"]}
{"id": "C03", "title": "Relabelling components does not change the Helmholtz energy", "statement": "If the pure records, the binary matrix and the mole numbers are permuted consistently, each residual contribution of PcSaft is unchanged. (False for the quadrupole contribution with two quadrupolar species of different sigma.)", "quantifier": "all mixtures, all permutations of the components, all states", "why_tests_cant": "The number of permutations and mixtures is unbounded; existing tests have at most one quadrupolar species and never permute.", "anchors": ["src/eos/polar.rs: Quadrupole::helmholtz_energy (line 341)", "src/eos/polar.rs: Dipole, DipoleQuadrupole, MeanSegmentNumbers", "src/eos/dispersion.rs", "src/eos/hard_sphere.rs", "src/eos/hard_chain.rs"]}
{"id": "C04", "title": "A component with zero moles has no influence", "statement": "A mixture EOS evaluated with zero moles of some components gives the same Helmholtz energy as the EOS of the subset without these components.", "quantifier": "all mixtures, all subsets containing every component with nonzero moles, all states", "why_tests_cant": "The mix tests cover propane/butane only and no polar or associating species.", "anchors": ["src/eos/mod.rs: EquationOfState::subset", "src/parameters.rs: from_records", "src/eos/*.rs helmholtz_energy"]}
{"id": "C05", "title": "Splitting a component into identical pseudo-components does not change the Helmholtz energy", "statement": "Duplicating a component (same record, zero k_ij between the copies, same k_ij to the others) and distributing its moles arbitrarily over the copies leaves the Helmholtz energy of each contribution unchanged.", "quantifier": "all mixtures, all components, all distributions of moles over the copies", "why_tests_cant": "Invariance over a continuum of distributions for every mixture cannot be sampled.", "anchors": ["src/eos/hard_sphere.rs", "src/eos/hard_chain.rs", "src/eos/dispersion.rs", "src/eos/polar.rs"]}
{"id": "C06", "title": "Ideal gas limit", "statement": "For fixed temperature and composition every residual contribution, and the residual Helmholtz energy as a whole, tends to zero as the volume tends to infinity. For the polar terms this requires that the leading low-density orders do not cancel in the denominator of the Pade approximant, which holds whenever every polar component has m >= 1 and T >= epsilon_k.", "quantifier": "all parameter sets with positive m, sigma, epsilon_k, all temperatures, all compositions, all solvers; limit V -> infinity", "why_tests_cant": "A limit statement; tests evaluate at finite volume.", "anchors": ["src/eos/hard_sphere.rs", "src/eos/hard_chain.rs", "src/eos/dispersion.rs", "src/eos/polar.rs", "src/eos/association.rs"]}
{"id": "C07", "title": "Finite results for every physical state", "statement": "With positive m, sigma, epsilon_k and T, V > 0, non-negative moles with at least one positive, and packing fraction below one, every contribution evaluates to a finite number: no division by zero, no logarithm or root of an invalid argument, no NaN or infinity.", "quantifier": "all such parameter sets and states", "why_tests_cant": "NaN shows up only at particular inputs; absence must hold for every solver iterate.", "anchors": ["src/eos/hard_sphere.rs", "src/eos/hard_chain.rs", "src/eos/dispersion.rs", "src/eos/polar.rs", "src/eos/association.rs"]}
{"id": "C08", "title": "Dual-number evaluation yields the true derivative", "statement": "Evaluating a contribution with dual numbers returns, as real part, the value of the plain evaluation and, as dual part, the exact derivative of the Helmholtz energy along the seeded direction (temperature, volume or moles), also across the branches that inspect only real parts.", "quantifier": "all parameter sets, all states in the physical domain, all directions", "why_tests_cant": "Derivative correctness at every point cannot be tested by finite differences at a few points.", "anchors": ["src/eos/*.rs: helmholtz_energy<D: DualNum>", "src/eos/association.rs: assoc_site_frac_ab"]}
{"id": "C09", "title": "Bulk Helmholtz energy density of the functional equals the equation of state", "statement": "In a homogeneous fluid the contributions of PcSaftFunctional (chain including the ideal chain term, attraction including polar terms, association, pure FMT) equal the corresponding contributions of PcSaft divided by the volume. (False for mixtures with two quadrupolar species, for dq44, and for pure components with m<1.)", "quantifier": "all parameter sets, temperatures and densities", "why_tests_cant": "test_bulk_implementations checks one non-polar pure substance at one state.", "anchors": ["src/dft/*.rs: calculate_helmholtz_energy_density", "src/eos/*.rs", "tests/dft.rs: test_bulk_implementations"]}
{"id": "C10", "title": "The specialised pure-component functional agrees with the general functional", "statement": "For one component, the contributions chosen for WhiteBear/AntiSymWhiteBear (pure FMT+association, pure chain, pure attractive) have the same bulk Helmholtz energy density as the general contributions. (False when the component has both dipole and quadrupole, or m<1.)", "quantifier": "all single-component parameter sets, temperatures, densities", "why_tests_cant": "Only one non-polar substance with m>1 is tested.", "anchors": ["src/dft/pure_saft_functional.rs", "src/dft/dispersion.rs", "src/dft/hard_chain.rs", "src/dft/mod.rs: with_options"]}
{"id": "C11", "title": "Two-site association fractions solve the mass-action law", "statement": "For every association strength times density deltarho>=0 and site numbers na, nb>0 the fraction of unbonded A sites lies in (0,1], the derived fraction of B sites lies in (0,1], both satisfy the mass-action equations, and the low-density branch agrees with the exact solution up to third order.", "quantifier": "all deltarho >= 0, all na, nb > 0", "why_tests_cant": "Continuum of inputs and a branch at 2^-26.", "anchors": ["src/eos/association.rs: assoc_site_frac_ab", "src/eos/association.rs: Association::helmholtz_energy"]}
{"id": "C12", "title": "One-site association fraction solves the mass-action law", "statement": "For nb=0 (one self-associating site type) the fraction of unbonded sites lies in (0,1] and satisfies X*(1+na*deltarho*X)=1. (False: the implemented closed form is above 2 for every deltarho above the switch.)", "quantifier": "all deltarho >= 0, all na > 0", "why_tests_cant": "No test or shipped substance uses nb=0; the claim is over a continuum.", "anchors": ["src/eos/association.rs: assoc_site_frac_a"]}
{"id": "C13", "title": "An accepted cross-association solve is a converged one", "statement": "helmholtz_energy_density_cross_association returns Ok only if some iterate of the Newton iteration had a residual norm below the tolerance, otherwise NotConverged (or the linear-algebra error); for vanishing density it returns zero; the caller-provided start vector is overwritten only on success. (False for max_iter=0, where the start vector is accepted unchecked; and acceptance does not imply positive site fractions, not even from the default start.)", "quantifier": "all parameter sets, densities, association strengths, tolerances, iteration limits and start vectors", "why_tests_cant": "Depends on every possible iteration history.", "anchors": ["src/eos/association.rs: helmholtz_energy_density_cross_association, newton_step_cross_association"]}
{"id": "C14", "title": "Cross-association equations have exactly one physical solution and generalise the two-site solution", "statement": "For every number of associating components, non-negative association strengths, site numbers and densities the mass-action equations have at most one solution with positive fractions; fixed points of the Newton step are exactly the solutions; for one component with two site types the solution is the closed form used by Association.", "quantifier": "all numbers of associating species, all strengths, site numbers, densities", "why_tests_cant": "Uniqueness is a statement about all vectors of all dimensions.", "anchors": ["src/eos/association.rs: newton_step_cross_association, assoc_site_frac_ab"]}
{"id": "C15", "title": "Cross-association derivatives are implicit derivatives", "statement": "Starting from an exact real solution, one dual-number Newton step leaves the real part unchanged and produces the exact first derivative of the site fractions with respect to any parameter; k steps produce all derivatives up to order k.", "quantifier": "all dimensions, all smooth dependencies of strengths and densities, all derivative orders k", "why_tests_cant": "Universally quantified over orders and inputs.", "anchors": ["src/eos/association.rs: lines 197-201, newton_step_cross_association"]}
{"id": "C16", "title": "Combining rules of from_records", "statement": "sigma_ij is the arithmetic mean, e_k_ij the geometric mean, epsilon_k_ij the geometric mean damped by 1-k_ij; all are symmetric (epsilon_k_ij if the binary matrix is), have the pure parameters on the diagonal (k_ii=0), association cross parameters are non-zero exactly for pairs of associating components; missing optional parameters default to mu=q=kappa_ab=epsilon_k_ab=0, na=nb=1.", "quantifier": "all numbers of components, all records, all binary matrices", "why_tests_cant": "Unbounded number of components and optional-field patterns.", "anchors": ["src/parameters.rs: PcSaftParameters::from_records"]}
{"id": "C17", "title": "Polar and associating index sets", "statement": "dipole_comp, quadpole_comp and assoc_comp list exactly the components with non-zero dipole moment, quadrupole moment and association volume, in increasing order without duplicates, and ndipole, nquadpole, nassoc are their lengths; every index is in bounds.", "quantifier": "all record lists", "why_tests_cant": "Index-set correctness must hold for every pattern of optional fields.", "anchors": ["src/parameters.rs: from_records lines 321-344"]}
{"id": "C18", "title": "subset is a homomorphism", "statement": "Parameters of a subset equal the parameters built from the selected records; selecting all components in order is the identity; selecting twice equals selecting once with composed indices; options and FMT version are preserved; an out-of-range index panics.", "quantifier": "all parameter sets, all index lists (including repetitions)", "why_tests_cant": "Unbounded index lists.", "anchors": ["src/eos/mod.rs: subset", "src/dft/mod.rs: subset", "src/parameters.rs: records, from_records"]}
{"id": "C19", "title": "Contribution selection is complete and minimal", "statement": "PcSaft evaluates hard sphere, hard chain, dispersion always, dipole iff some component is dipolar, quadrupole iff some is quadrupolar, dipole-quadrupole iff both, Association iff exactly one and CrossAssociation iff two or more components associate; a contribution that is left out would evaluate to zero, so the residual is the sum of all terms; names are distinct.", "quantifier": "all parameter sets, options, states", "why_tests_cant": "All combinations of component classes and states.", "anchors": ["src/eos/mod.rs: PcSaft::with_options", "src/dft/mod.rs: with_options"]}
{"id": "C20", "title": "Maximum density", "statement": "compute_max_density is positive, depends only on composition (not on the total amount), and at that density the packing fraction computed with sigma is max_eta, hence the temperature-dependent packing fraction is below max_eta; PcSaft and PcSaftFunctional agree.", "quantifier": "all parameter sets, mole vectors, options, temperatures", "why_tests_cant": "Universally quantified inequality.", "anchors": ["src/eos/mod.rs: compute_max_density", "src/dft/mod.rs: compute_max_density"]}
{"id": "C21", "title": "Signs of the contributions", "statement": "In every physical state the hard-sphere contribution is non-negative, the chain contribution is non-positive when all m>=1, the association contribution (two-site) is non-positive, and the contact value of the pair correlation is at least one.", "quantifier": "all parameter sets and states with packing fraction below one", "why_tests_cant": "Inequalities over a continuum.", "anchors": ["src/eos/hard_sphere.rs", "src/eos/hard_chain.rs", "src/eos/association.rs"]}
{"id": "C22", "title": "Group-contribution records are additive", "statement": "from_segments conserves the total segment number, segment volume m*sigma^3 and energy m*epsilon_k, is independent of the order of segments and of how equal segments are grouped, reproduces a single segment with count 1, and an optional parameter is present iff at least one segment carries it.", "quantifier": "all segment lists and (real) multiplicities", "why_tests_cant": "Unbounded lists.", "anchors": ["src/parameters.rs: FromSegments::from_segments"]}
{"id": "C23", "title": "Group-contribution transport coefficients do not depend on the grouping of equal segments", "statement": "Transport coefficients of a record built from segments do not depend on how equal segments are grouped. (False for the fourth thermal-conductivity coefficient, which is counted once per list entry; diffusion coefficients are always zero.)", "quantifier": "all segment lists with coefficients", "why_tests_cant": "No test covers transport coefficients of group contributions.", "anchors": ["src/parameters.rs: lines 85-137"]}
{"id": "C24", "title": "Availability of transport correlations", "statement": "Transport coefficient matrices are present iff every component carries the coefficients, column i holds the coefficients of component i; correlations on parameter sets without coefficients panic and never return a number.", "quantifier": "all record lists", "why_tests_cant": "All patterns of missing coefficients.", "anchors": ["src/parameters.rs: lines 370-399", "src/eos/mod.rs: viscosity_correlation, diffusion_correlation, thermal_conductivity_correlation"]}
{"id": "C25", "title": "Diffusion and thermal conductivity are restricted to pure components", "statement": "diffusion_reference, diffusion_correlation, thermal_conductivity_reference and thermal_conductivity_correlation return IncompatibleComponents(n,1) for every n != 1, before anything else is evaluated.", "quantifier": "all parameter sets and arguments", "why_tests_cant": "All component counts and missing-coefficient patterns (error takes precedence over the panic).", "anchors": ["src/eos/mod.rs: EntropyScaling for PcSaft"]}
{"id": "C26", "title": "Viscosity mixing is consistent", "statement": "viscosity_reference of a pure component is its Chapman-Enskog value, is independent of the total amount, invariant under relabelling, and a mixture of identical components has the pure value; viscosity_correlation of identical components equals the pure polynomial and is invariant under relabelling.", "quantifier": "all mixtures, compositions and temperatures", "why_tests_cant": "Continuum of compositions.", "anchors": ["src/eos/mod.rs: viscosity_reference, viscosity_correlation"]}
{"id": "C27", "title": "Collision integrals and transport references are positive", "statement": "omega11 and omega22 are positive for every positive reduced temperature (omega11 decreasing), so the Chapman-Enskog references (viscosity, self-diffusion, thermal conductivity) are positive; the thermal-conductivity reference is positive for t >= 0.3552 m epsilon whatever the entropy.", "quantifier": "all reduced temperatures in (0, infinity)", "why_tests_cant": "Continuum of temperatures, oscillating correction term.", "anchors": ["src/eos/mod.rs: omega11, omega22, chapman_enskog_thermal_conductivity"]}
{"id": "C28", "title": "Transport properties respect the options of the equation of state", "statement": "thermal_conductivity_reference of an EOS built with with_options is the published reference evaluated with the residual entropy of that EOS, for all options (although the code rebuilds an EOS with default options: for one component no option influences the residual Helmholtz energy).", "quantifier": "all options and states", "why_tests_cant": "No test uses non-default options.", "anchors": ["src/eos/mod.rs: line 295"]}
{"id": "C29", "title": "JSON round trip of records", "statement": "Serialising a PcSaftRecord and deserialising the result returns the same record; absent optional fields are not written and are read as None; missing mandatory fields are rejected; key order and unknown keys do not matter.", "quantifier": "all records, all key orders", "why_tests_cant": "All 2^9 option patterns and all orders.", "anchors": ["src/parameters.rs: PcSaftRecord (serde attributes), PcSaftBinaryRecord"]}
{"id": "C30", "title": "Text representations are faithful", "statement": "Display of a PcSaftRecord mentions an optional parameter iff it is set and in a fixed order; to_markdown has a header, a separator and exactly one row of eleven columns per component; Display of PcSaftParameters shows polar, association and k_ij lines iff they are non-trivial.", "quantifier": "all records and parameter sets", "why_tests_cant": "All option patterns, any number of components.", "anchors": ["src/parameters.rs: Display for PcSaftRecord, to_markdown, Display for PcSaftParameters"]}
{"id": "C31", "title": "FMT guard of the pure functional", "statement": "PureFMTAssocFunctional fails with IterationFailed iff some local packing fraction exceeds one; the unreachable branch for other FMT versions is never reached through PcSaftFunctional::with_options.", "quantifier": "all parameter sets, FMT versions and weighted-density profiles of any length", "why_tests_cant": "All profiles and versions.", "anchors": ["src/dft/pure_saft_functional.rs: calculate_helmholtz_energy_density", "src/dft/mod.rs: with_options"]}
{"id": "C32", "title": "Taylor switch of the FMT f3 term", "statement": "For packing fractions below the cutoff the Taylor polynomial deviates from the exact expression by at most a bound of order n3^5.", "quantifier": "all 0 < n3 < 1e-5", "why_tests_cant": "Continuum near a 0/0 singularity where floating point tests are meaningless.", "anchors": ["src/dft/pure_saft_functional.rs: lines 105-111"]}
{"id": "C33", "title": "Pair potential", "statement": "The solvation pair potential vanishes at r=sigma, is bounded below by -epsilon_k, attains -epsilon_k exactly at r=2^(1/6) sigma and is positive inside sigma, negative outside.", "quantifier": "all components and distances r>0", "why_tests_cant": "Continuum of distances.", "anchors": ["src/dft/mod.rs: PairPotential::pair_potential"]}
{"id": "C34", "title": "QSPR ideal gas model", "statement": "The correlation coefficients are chosen by the class of the mixture (non-associating non-polar, non-associating polar, associating); the term of a component is the correlation applied to its own record; at the reference temperature it is the same ideal value for every component; Joback is used iff every component has a Joback record. (Independence of the other components is false: the class is that of the mixture.)", "quantifier": "all parameter sets", "why_tests_cant": "All classes and all parameters.", "anchors": ["src/eos/qspr.rs: de_broglie_wavelength", "src/eos/mod.rs: with_options ideal_gas"]}
{"id": "C35", "title": "Dispersion compressibility term is well defined", "statement": "The inverse compressibility 1/C1 is at least one for every packing fraction in [0,1) and every mean segment number > 0 (so C1 is in (0,1]), for the EOS and for both functionals.", "quantifier": "all packing fractions in [0,1), all m>0", "why_tests_cant": "Continuum of inputs; a sign change would make the EOS singular.", "anchors": ["src/eos/dispersion.rs: c1", "src/dft/dispersion.rs: c1", "src/dft/pure_saft_functional.rs: c1"]}
{"id": "C36", "title": "Binary interaction parameters act only on dispersion", "statement": "Changing k_ij leaves all contributions except dispersion unchanged; dispersion depends on k_ij only through epsilon_k_ij; for a binary mixture with k_12=1 the cross interaction vanishes.", "quantifier": "all parameter sets, all binary matrices, all states", "why_tests_cant": "Continuum of k_ij values and states.", "anchors": ["src/parameters.rs: from_records", "src/eos/polar.rs: e_k_ij", "src/eos/dispersion.rs: epsilon_k_ij"]}
{"id": "C37", "title": "dq_variant", "statement": "dq_variant affects only the dipole-quadrupole contribution; both variants coincide when dipolar and quadrupolar components have the same sigma; unknown names are rejected. The option is honoured by the functional as well. (False: the functional always uses dq35.)", "quantifier": "all parameter sets and states", "why_tests_cant": "The dipole-quadrupole test is commented out in the repository.", "anchors": ["src/eos/polar.rs: DipoleQuadrupole", "src/dft/polar.rs: phi_polar_dipole_quadrupole", "src/python.rs: From<&str> for DQVariants"]}
{"id": "C38", "title": "Grid evaluation of cross-association is history-consistent", "statement": "On a density profile the functional returns Ok iff every grid point's solve succeeds, each grid point's energy stems from a converged solve regardless of the warm start inherited from the previous grid points, and after an empty grid point the start vector is reset to one.", "quantifier": "all profiles of any length, all warm-start histories", "why_tests_cant": "All histories of warm starts.", "anchors": ["src/dft/association.rs: lines 152-179", "src/eos/association.rs: x0 handling"]}
{"id": "C39", "title": "Contributions equal the published expressions", "statement": "In every physical state each Helmholtz energy contribution returned by the equation of state equals the expression published for it (hard sphere, hard chain, dispersion, dipole, quadrupole, dipole-quadrupole in both variants, association with mass-action site fractions), evaluated with the parameters of the records and the combining rules. (False for the quadrupole contribution of mixtures of quadrupolar components of different diameter.)", "quantifier": "all numbers of components, all parameter records with positive m, sigma, epsilon_k, all binary parameters, all temperatures, volumes and mole numbers with packing fraction below one", "why_tests_cant": "Unit tests compare a handful of numbers; the index-set loops with symmetry factors have to agree with full double and triple sums for every number of components.", "anchors": ["src/eos/hard_sphere.rs", "src/eos/hard_chain.rs", "src/eos/dispersion.rs", "src/eos/polar.rs", "src/eos/association.rs: Association"]}
{"id": "C40", "title": "Virial coefficients", "statement": "Evaluating the equation of state with dual numbers at zero density succeeds with finite derivatives of any order. The second virial coefficient obtained from it is the limit of v*A(T,v,x) for one mole (molecule) as v grows (A: reduced residual Helmholtz energy), its temperature derivative is the derivative of that function, and the third coefficient is the limit of 2v(v*A-B). The coefficients do not depend on how a component is divided into identical components. (False for the third coefficient of polar fluids, which lacks the leading three-body term, and for divided associating components, whose association contribution is lost.)", "quantifier": "all mixtures with positive m, sigma, epsilon_k, all temperatures, all compositions, any number of infinitesimals and any seeding", "why_tests_cant": "The repository only tests that the value for two mixtures is not NaN; a limit over all volumes and a division by zero guarded by is_nan on nested dual numbers cannot be settled by samples.", "anchors": ["src/eos/polar.rs: Dipole, Quadrupole, DipoleQuadrupole (is_nan guards)", "src/eos/association.rs: CrossAssociation, Association", "src/eos/mod.rs: PcSaft"]}
{"id": "C41", "title": "Exact derivatives of the Helmholtz energy functional", "statement": "Evaluating a contribution of the functional at a grid point with dual numbers for the temperature and for every weighted density returns the exact value and partial derivatives, of any order, of the plain evaluation. These derivatives are what the density functional solver convolves. With several associating components they are the derivatives of the energy at the solution of the mass-action law, to any accuracy for a small enough tolerance.", "quantifier": "all mixtures with positive m, sigma, epsilon_k, all temperatures, all weighted densities away from the listed switches and poles, any number of infinitesimals and any directions, any number of grid points and vector directions", "why_tests_cant": "Nested dual numbers through branches (cut-offs, absolute value, Pade guards): an assertion on samples of the value cannot settle all orders at all points.", "anchors": ["src/dft/hard_chain.rs: ChainFunctional", "src/dft/dispersion.rs: AttractiveFunctional", "src/dft/polar.rs", "src/dft/association.rs: AssociationFunctional", "src/dft/pure_saft_functional.rs: PureFMTAssocFunctional, PureChainFunctional, PureAttFunctional"]}
{"id": "C42", "title": "Empty grid points of a density profile", "statement": "At a grid point without molecules (all weighted densities zero, as inside a wall) every contribution of the functional and all its derivatives are finite; the derivatives are those of the functional on the side of non-negative densities, except that polar terms contribute their second order only. With several associating components value and first derivatives of the association term are those of the exact energy, the second derivatives are not. (False for the antisymmetrised White-Bear version of the specialised functional, which returns NaN.)", "quantifier": "all mixtures with positive m, sigma, epsilon_k, all temperatures, any number of infinitesimals and any directions, any number of vector directions", "why_tests_cant": "The expressions are 0/0 before the guards; whether every guard covers value and every derivative is a statement about all parameters and orders.", "anchors": ["src/dft/hard_chain.rs: ChainFunctional", "src/dft/dispersion.rs: AttractiveFunctional", "src/dft/polar.rs", "src/dft/association.rs: N0_CUTOFF", "src/dft/pure_saft_functional.rs: N3_CUTOFF, AntiSymWhiteBear"]}
{"id": "C43", "title": "The functional of a uniform fluid has the derivatives of the equation of state", "statement": "Evaluating the functional of a uniform fluid with dual numbers for temperature, volume and amounts gives a Helmholtz energy density whose product with the volume has, in every order, the derivatives of the residual Helmholtz energy of the equation of state: pressure, chemical potentials, entropy and all second derivatives of the bulk phase agree. The functional fails exactly when the equation of state fails.", "quantifier": "all mixtures with positive m, sigma, epsilon_k and at most one quadrupolar component, all states with positive amounts, packing fraction above 1e-5 and no pole, any number of infinitesimals in any directions, all versions of the hard-sphere functional (for one component: without own binary parameter, m at least 1, not dipolar and quadrupolar at once), any dimension", "why_tests_cant": "Equality of values at sampled states says nothing about derivatives; two different algorithms (weighted densities, convolved kernels in the bulk limit) must agree in every coefficient.", "anchors": ["src/dft/mod.rs: PcSaftFunctional", "src/dft/hard_chain.rs: ChainFunctional", "src/dft/dispersion.rs: AttractiveFunctional", "src/dft/association.rs: AssociationFunctional", "src/dft/pure_saft_functional.rs", "src/eos/mod.rs: PcSaft"]}
{"id": "C44", "title": "Data reported by the equation of state and the functional", "statement": "Molar weights (kg/mol), well depths, diameters and segment numbers reported by the equation of state and by the functional are those of the component records, in order, for every option and hard-sphere version, and selecting components selects the same items. The ideal-gas terms of both models agree. (False for the ideal-gas term unless every record has ideal-gas coefficients: the equation of state estimates missing ones, the functional takes zero heat capacities.)", "quantifier": "all lists of records, all binary parameters, options and hard-sphere versions, all selections of components, all temperatures", "why_tests_cant": "Order, unit and fallback must be right for every list of components and every selection, not for the one or two mixtures of a test.", "anchors": ["src/eos/mod.rs: molar_weight, ideal_gas, subset", "src/dft/mod.rs: molar_weight, epsilon_k_ff, sigma_ff, component_index, chain_length, molecule_shape, ideal_gas, subset", "src/parameters.rs: from_records"]}
{"id": "C45", "title": "Functional contributions on a density profile equal the published expressions", "statement": "At every point of a density profile the contributions of the functional have the published form in the weighted densities of that point: hard-sphere terms of the White Bear and antisymmetrised versions (pure fluids), chain term with the contact value of the weighted densities, dispersion and polar terms of the sphere-averaged densities, association with the inhomogeneous contact value, vector-density factors and fractions solving the inhomogeneous mass-action law. With the weighted densities of a uniform fluid this is the bulk model. The weighted densities themselves carry the prefactors and radii the functional declares. The square-gradient approximation differs only in the range of the averages of the attraction term and not at all in a uniform fluid.", "quantifier": "all component lists, temperatures, numbers of vector directions, local densities and convolutions (arbitrary functions, so all profiles and geometries) with packing below one; association: one associating component exactly, several within the error of the tolerance; attraction: at most one quadrupolar component", "why_tests_cant": "Tests compare a few profiles with stored numbers; a wrong exponent on a vector density is invisible in every uniform fluid and small in most profiles.", "anchors": ["src/dft/hard_chain.rs: weight_functions, calculate_helmholtz_energy_density", "src/dft/dispersion.rs: weight_functions, calculate_helmholtz_energy_density", "src/dft/association.rs: weight_functions, calculate_helmholtz_energy_density", "src/dft/pure_saft_functional.rs: PureFMTAssocFunctional, PureChainFunctional, PureAttFunctional"]}
{"id": "C46", "title": "First and second derivatives satisfy the Euler and Gibbs-Duhem relations", "statement": "The first derivatives of the residual Helmholtz energy obtained with dual numbers form a total differential: the derivative for any simultaneous change of temperature, volume and mole numbers is the sum of the partial derivatives (entropy, pressure, chemical potentials) times the changes. They satisfy the Euler relation A = V dA/dV + sum n_i dA/dn_i, and the second derivatives satisfy the Gibbs-Duhem relations: the derivatives of pressure and of every chemical potential vanish when volume and mole numbers grow in proportion, the entropy grows in proportion.", "quantifier": "all component lists, options and physical states that are regular points (no pole of a polar term, not at the switch of the association term), at most one associating component; all directions", "why_tests_cant": "A test checks the relations at a few states within a tolerance, which hides small inconsistencies between the seeds of different properties.", "anchors": ["src/eos/mod.rs: evaluate_residual", "src/eos/hard_sphere.rs, hard_chain.rs, dispersion.rs, polar.rs, association.rs: helmholtz_energy"]}
{"id": "C47", "title": "Second derivatives are symmetric (Maxwell relations)", "statement": "Second derivatives of the residual Helmholtz energy obtained with hyper-dual numbers do not depend on which of the two infinitesimals carries which variable: exchanging the directions exchanges the first-order parts and leaves the mixed part unchanged, and one symmetric matrix gives the mixed part for all pairs of directions.", "quantifier": "all component lists, options and physical states that are regular points, at most one associating component; all pairs of directions", "why_tests_cant": "Requires every branch and every operation to be twice differentiable with symmetric derivatives at every state, not at the tested ones.", "anchors": ["src/eos/mod.rs: evaluate_residual", "src/eos/hard_sphere.rs, hard_chain.rs, dispersion.rs, polar.rs, association.rs: helmholtz_energy"]}
{"id": "C48", "title": "The shipped substance parameters are usable", "statement": "Every entry of the seven shipped files of substances is read without error and has positive segment number, diameter and energy, non-negative moments and association parameters, and never both a dipole and a quadrupole moment; the files contain what their description says (polar, associating, with viscosity coefficients). Therefore every mixture of shipped substances with any matrix of interaction parameters can be built, its residual Helmholtz energy at 345 K and above vanishes at low density and is finite up to the packing fraction 0.74, and for every shipped substance but argon the functional of the uniform fluid equals the equation of state in every version. (Finiteness fails for mixtures of two associating substances with different site numbers.)", "quantifier": "all entries of the shipped files; all lists of them of any length, all interaction matrices with enough rows and columns; all temperatures of at least 345 K, all compositions; for finiteness at most one associating component and the packing fractions of C07", "why_tests_cant": "Tests read one or two substances; the number of mixtures is unbounded and the consequences quantify over all states.", "anchors": ["parameters/gross2001.json, gross2002.json, gross2005_fit.json, gross2005_literature.json, gross2006.json, loetgeringlin2018.json, rehner2020.json", "src/parameters.rs: PcSaftRecord, PcSaftParameters::from_records", "src/eos/mod.rs: evaluate_residual", "src/dft/mod.rs: PcSaftFunctional"]}
{"id": "C49", "title": "The shipped group contribution files give usable molecules", "statement": "Every molecule of the shipped list can be assembled from both shipped homosegmented group files; its record has positive segment number, diameter and energy and is a valid component, alone or mixed with shipped substances. Any other molecule of these groups, however large, has a physical record if it has at least two methyl groups for every quaternary carbon, whose own segment number is negative.", "quantifier": "all molecules of the list and both files; all non-empty lists of group names of any length with the stated condition; all mixtures of any number of such components", "why_tests_cant": "The set of molecules is infinite and the contributions of one group are negative, so that some molecules fail.", "anchors": ["parameters/gc_substances.json, sauer2014_homo.json, loetgeringlin2015_homo.json", "src/parameters.rs: PcSaftRecord::from_segments"]}
{"id": "C50", "title": "The Python constructors take their documented arguments and build the documented objects", "statement": "A call of PcSaftRecord, PcSaft or PcSaftFunctional binds every argument, given by position or by keyword in any order, to the parameter documented under that position or name, uses the documented default for the others and rejects a call with an unknown, repeated, missing or surplus argument. A PcSaftRecord shows under every attribute the value given for it, can be rebuilt from its attributes, and its repr, evaluated, gives the record back. PcSaft(parameters) and PcSaftFunctional(parameters) are the models with default options; options passed by name mean the same to both. An unknown dq_variant ends in a panic for both, a float or negative iteration limit in an exception.", "quantifier": "all lists of positional and keyword arguments of any length and with any values, all records, all parameter sets; for repr all texts of numbers that Python reads back as the same number", "why_tests_cant": "The ways to pass arguments and the values are unbounded; a test checks one call.", "anchors": ["src/python.rs: PyPcSaftRecord, PyPcSaftParameters", "build_wheel/src/eos.rs: PyPcSaft", "build_wheel/src/dft.rs: PyPcSaftFunctional"]}
{"id": "C51", "title": "The association energy is a maximum, and stronger or more bonds never raise the Helmholtz energy", "statement": "The unbonded fractions of the law of mass action maximise a concave trial energy and the maximum is the association energy density. Replacing substances by ones with the same segments but association energies, volumes or site numbers at least as large never raises the association contribution or the residual Helmholtz energy, up to the solver error. The association contribution is never positive and never below minus the first-order (all pairs bonded) estimate, up to the same error.", "quantifier": "all parameter sets with physical association parameters, all states in the fluid range, all positive trial fractions, all pairs of mixtures ordered site by site", "why_tests_cant": "Compares all pairs of mixtures at all states; a test compares one pair.", "anchors": ["src/eos/association.rs: Association, CrossAssociation, helmholtz_energy_density_cross_association", "src/parameters.rs: PcSaftRecord"]}
{"id": "C52", "title": "Rounding to f64 does not spoil diameters, hard-sphere, chain, dispersion and polar energies, free-volume factors and bonded fractions", "statement": "With f64 rounding and library functions accurate to one unit in the last place: the hard-sphere diameter is correct to 2^-51 at every temperature and never exceeds sigma; the free-volume factor of the hard-sphere functional has ten correct digits at every packing fraction on both sides of its series switch; for one associating component with equal site numbers the computed unbonded fraction lies in (0,1] and its error is a few roundoffs times 1 + 1/(n delta rho), so the bonded fraction and the association energy keep their digits, and fractions never become zero. The whole hard-sphere contribution of a mixture has a relative error of at most 21 (n+24)/(1-eta) units of roundoff for n components at packing fraction eta, and the hard-chain contribution an error of at most 11 (n+24)/(1-eta) units relative to the weights of its terms. The dispersion contribution deviates by at most (n^2+226n+5189)/(1-eta) units of roundoff of the sum of the absolute values of its terms, rounding of the combining rules included. The dipole, quadrupole and dipole-quadrupole contributions of a mixture keep their digits up to the cancellation in their Pade denominators: the error is a number of roundoffs (linear in the number of components and in the number of third-order terms) times the squared second-order magnitude over the absolute value of the difference of the two orders, rounding of the reduced moments, of the segment means and of the conversion constants included; the quadrupole contribution of several components is compared with the exact value of the code's own expression. For several associating components, an accepted result is within a factor q of the exact solution of the law of mass action with the computed strengths, where 1 - 1/q is (11.6 tol^2 + 20 c tol + 19.2 (n+5) 2^-53)/s for tolerance tol, solver accuracy c and smallest fraction s, and the energy follows with the error 3/2 (q-1) times the density of sites plus (n+9) roundoffs of its terms; a start at the exact solution is never rejected because of rounding. The association strength itself has a relative error of at most 10(n+30)/(1-eta) + 7(1+eps/T) units of roundoff, and the association contribution of a state is within the corresponding error, divided by the smallest fraction, of the energy of the exact law of mass action. The whole residual Helmholtz energy of a mixture without polar components and with at most one associating component, of equal site numbers, is within the sum of the contributions' errors plus five roundoffs of the terms of its exact value.", "quantifier": "all f64 inputs in the physical range, all library functions within the accuracy bound, exponents unbounded (no overflow or underflow)", "why_tests_cant": "Cancellation errors appear only in small regions of the inputs next to branch switches; a test at a few states does not hit them, and none bounds the error for all inputs.", "anchors": ["src/eos/hard_sphere.rs: hs_diameter", "src/eos/association.rs: assoc_site_frac_ab, Association", "src/dft/pure_saft_functional.rs: PureFMTAssocFunctional", "src/eos/hard_sphere.rs: HardSphere, zeta, zeta_23", "src/eos/hard_chain.rs: HardChain", "src/eos/dispersion.rs: Dispersion", "src/eos/polar.rs: Dipole, Quadrupole, DipoleQuadrupole", "src/eos/association.rs: CrossAssociation, helmholtz_energy_density_cross_association, newton_step_cross_association", "src/eos/association.rs: association_strength", "src/eos/mod.rs: PcSaft"]}
{"id": "C53", "title": "High-temperature limit is the athermal hard-chain fluid", "statement": "At fixed volume and amounts, the reduced residual Helmholtz energy tends, as the temperature grows without bound, to the hard-chain value of segments with diameter 0.88 sigma: the hard-sphere and chain contributions converge to that value, the dispersion contribution decays like 1/T, the polar contributions like 1/T^2 with coefficients given by pair sums over the athermal fluid, and association vanishes.", "quantifier": "all parameter sets built from records with positive segment parameters and at most one associating component, all volumes and amounts whose athermal packing fraction is at most 0.74, polar components with at least one segment", "why_tests_cant": "A limit is not observable at any finite set of temperatures; a term that diverges slowly or converges to the wrong value looks plausible at each tested state.", "anchors": ["src/eos/hard_sphere.rs: HardSphere", "src/eos/hard_chain.rs: HardChain", "src/eos/dispersion.rs: Dispersion", "src/eos/polar.rs: Dipole, Quadrupole, DipoleQuadrupole", "src/eos/association.rs: Association"]}
{"id": "C54", "title": "Law of corresponding states: results do not depend on the units of length and energy", "statement": "If all segment diameters are multiplied by c, all energies and the temperature by e, the volume by c^3, and dipole and quadrupole moments by the square roots of c^3 e and c^5 e, the reduced residual Helmholtz energy and each of its contributions stay the same, and the maximum density is divided by c^3. In particular, two substances with equal reduced parameters have the same reduced properties.", "quantifier": "all parameter sets built from records with positive segment parameters, all c, e > 0, all states with packing fraction below one", "why_tests_cant": "Every test fixes one set of units; a hidden dimensional constant changes nothing at the tested values.", "anchors": ["src/parameters.rs: from_records", "src/eos/hard_sphere.rs", "src/eos/hard_chain.rs", "src/eos/dispersion.rs", "src/eos/polar.rs", "src/eos/association.rs: cross_association", "src/eos/mod.rs: compute_max_density"]}
{"id": "C55", "title": "Close packing: the residual Helmholtz energy grows beyond every bound", "statement": "If the volume is lowered at fixed temperature and amounts towards the volume of the segments (packing fraction one), the residual Helmholtz energy exceeds every bound: no attraction can compensate the repulsion of the segments. The hard-sphere contribution grows like the inverse square of the free volume fraction, chains and association change at most proportionally to its inverse, dispersion stays bounded.", "quantifier": "all parameter sets with positive segment parameters without polar components (polar ones if the second and third order terms differ at close packing) and at most one associating component with both kinds of sites, all temperatures and amounts, all bounds", "why_tests_cant": "A divergence is a statement about all bounds and all volumes near a limit at which the functions are not defined.", "anchors": ["src/eos/hard_sphere.rs", "src/eos/hard_chain.rs", "src/eos/dispersion.rs", "src/eos/polar.rs", "src/eos/association.rs"]}
{"id": "C56", "title": "Every pressure has a volume: the search for a state at given pressure has a solution", "statement": "For a mixture of non-polar, non-associating components, at every temperature and composition and for every positive pressure there is a volume above close packing at which the equation of state, differentiated with a seeded volume, has exactly that pressure, and at which the Gibbs energy is not higher than at any other volume. With one associating component every pressure above that of a given dense volume is reached between close packing and that volume.", "quantifier": "all parameter sets of non-polar components with positive segment parameters (no associating component; or one with both kinds of sites, from volumes at which the association strength is above the solver's switch), all temperatures, amounts and pressures", "why_tests_cant": "The existence of a solution for every pressure is not visible from any number of successful or failed iterations; a failing iteration may mean that there is nothing to find.", "anchors": ["src/eos/mod.rs", "src/eos/hard_sphere.rs", "src/eos/hard_chain.rs", "src/eos/dispersion.rs", "src/eos/association.rs"]}
{"id": "C57", "title": "Vapour-liquid equilibrium of a pure fluid exists where it should and nowhere else", "statement": "If, for a pure non-polar non-associating component at some temperature, a volume has a higher Helmholtz energy than a coexistence of two other volumes with the same mean, or the pressure somewhere rises with the volume, then there are two volumes on both sides of the unstable one at which pressure and chemical potential, as delivered by differentiation with seeded volume and amount, are equal, the pressure is positive, and no other volume has a lower Gibbs energy at that pressure. Every such component that attracts itself has this equilibrium at all sufficiently low temperatures; at all sufficiently high temperatures the pressure falls strictly with the volume, every positive pressure belongs to exactly one volume, and no two volumes coexist.", "quantifier": "all pure-component parameter sets with positive segment parameters and without polar or associating sites, all temperatures, amounts and volumes", "why_tests_cant": "Existence of coexisting states for every parameter set and temperature below the critical one, and their absence above, are statements over a continuum; a failed search does not show that nothing exists.", "anchors": ["src/eos/mod.rs", "src/eos/hard_sphere.rs", "src/eos/hard_chain.rs", "src/eos/dispersion.rs"]}
{"id": "C58", "title": "Every attracting pure fluid has a critical point", "statement": "For every pure non-polar non-associating component that attracts itself there is a critical temperature and a critical volume: at and above that temperature the pressure delivered by differentiation falls strictly with the volume, so that no two volumes coexist; at temperatures as close below as one likes two volumes coexist; at the critical volume the pressure is positive and its first two derivatives with respect to volume vanish. At any temperature, two volumes coexist if and only if the pressure somewhere rises with the volume. A search for the critical point of such a fluid has a solution.", "quantifier": "all pure-component parameter sets with positive segment parameters, without polar or associating sites and with an attraction, all amounts and volumes up to close packing", "why_tests_cant": "Tests compute the critical point of one substance; existence for every parameter set, and the absence of equilibria above it for every volume, range over a continuum.", "anchors": ["src/eos/mod.rs", "src/eos/hard_sphere.rs", "src/eos/hard_chain.rs", "src/eos/dispersion.rs", "tests/critical_point.rs"]}
{"id": "C59", "title": "One volume per temperature and pressure above the critical point, one liquid below", "statement": "For a pure non-polar non-associating component that attracts itself, every positive pressure belongs to exactly one volume at and above the critical temperature, and that temperature cannot be lowered. Below it at most one of the volumes belonging to a temperature and a pressure has a liquid-like density, so that a density iteration started from a liquid guess has one possible answer.", "quantifier": "all pure-component parameter sets with positive segment parameters, without polar or associating sites and with an attraction; all temperatures, pressures and volumes up to close packing", "why_tests_cant": "A density iteration returns one root; that there is no other one can only be shown for all volumes at once.", "anchors": ["src/eos/mod.rs", "src/eos/hard_sphere.rs", "src/eos/hard_chain.rs", "src/eos/dispersion.rs", "tests/state_creation_pure.rs"]}
{"id": "C60", "title": "Closed form of the second virial coefficient, and one Boyle temperature per substance", "statement": "The second virial coefficient obtained by differentiating the residual Helmholtz energy twice at zero density equals an explicit sum over pairs of components of the hard-sphere, chain, dispersion, dipole, quadrupole, dipole-quadrupole and (for one associating component) bonding contributions. For a pure substance it grows strictly with the temperature and passes through zero at exactly one temperature, above which it is positive and below which it is negative: at all temperatures without multipole moments, and at temperatures from the dispersion energy upwards with them.", "quantifier": "closed form: all mixtures with positive segment parameters, all positive temperatures, all mole fractions; Boyle temperature: all pure substances with at least one segment (half a segment without moments), attractive or no bonds, all temperatures in the stated range", "why_tests_cant": "A test compares one number at one temperature; uniqueness of a zero is a statement about all temperatures, and the coefficient is a second derivative at a point where several contributions are 0/0.", "anchors": ["src/eos/mod.rs", "src/eos/hard_sphere.rs", "src/eos/hard_chain.rs", "src/eos/dispersion.rs", "src/eos/polar.rs", "src/eos/association.rs"]}
{"id": "C61", "title": "Second virial coefficient is quadratic in the mole fractions", "statement": "The second virial coefficient of a mixture is a quadratic form in the mole fractions with symmetric coefficients that depend on the temperature only, as statistical mechanics requires.", "quantifier": "all mixtures, temperatures and compositions", "why_tests_cant": "Virial coefficients of mixtures are not tested, and a test at one composition cannot see the order of a polynomial.", "anchors": ["src/eos/mod.rs", "src/eos/hard_sphere.rs", "src/eos/hard_chain.rs", "src/eos/dispersion.rs", "src/eos/polar.rs", "src/eos/association.rs"]}
{"id": "C62", "title": "The vapour at low pressure", "statement": "At every temperature and composition there is a volume beyond which the pressure (ideal-gas part plus the derivative of the residual Helmholtz energy with a seeded volume) falls strictly with the volume; every sufficiently low pressure is reached at exactly one volume beyond it, and as the pressure goes to zero this volume differs from the ideal-gas volume kB T/p by the second virial coefficient.", "quantifier": "all mixtures of any number of components with positive segment parameters and at most one associating component, all positive temperatures (with multipole moments: at least one segment and temperatures from the dispersion energy of the polar components upwards, or more generally no polar contribution with a vanishing leading coefficient), all mole fractions, all sufficiently low pressures", "why_tests_cant": "Existence and uniqueness for all low pressures and a limit are statements about infinitely many states; a density solver started at the ideal-gas volume relies on them.", "anchors": ["src/eos/mod.rs", "src/eos/hard_sphere.rs", "src/eos/hard_chain.rs", "src/eos/dispersion.rs", "src/eos/polar.rs", "src/eos/association.rs"]}
