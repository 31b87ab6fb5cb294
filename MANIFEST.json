{
 "claims": [
  {
   "property": "C01",
   "status": "proved",
   "theorems": [
    "C01_from_int_is_permutation",
    "C01_to_int_from_int",
    "C01_from_int_to_int",
    "C01_group_enumerates"
   ],
   "note": "from_int/to_int/group; rand only draws the index, randomness not modelled"
  },
  {
   "property": "C02",
   "status": "proved",
   "theorems": [
    "C02_is_perm_correct",
    "C02_compose",
    "C02_compose_raises",
    "C02_identity",
    "C02_inverse",
    "C02_inverse_raises",
    "C02_compose_assoc"
   ],
   "note": "entries are naturals"
  },
  {
   "property": "C03",
   "status": "proved",
   "theorems": [
    "C03_germinate",
    "C03_germinate_empty",
    "C03_germinate_raises"
   ],
   "note": "any enumeration order of the input set; fuel n!+1 suffices"
  },
  {
   "property": "C04",
   "status": "proved",
   "theorems": [
    "C04_is_group",
    "C04_germinate_is_group"
   ],
   "note": "sets of permutations of one length"
  },
  {
   "property": "C05",
   "status": "proved",
   "theorems": [
    "C05_signs",
    "C05_signs_agree",
    "C05_multiplicative",
    "C05_transposition"
   ],
   "note": "against mathcomp odd_perm"
  },
  {
   "property": "C06",
   "status": "proved",
   "theorems": [
    "C06_to_cycles",
    "C06_to_cycles_diverges"
   ],
   "note": "also: divergence on every non-permutation with entries in range"
  },
  {
   "property": "C07",
   "status": "proved",
   "theorems": [
    "C07_formula_generates_group",
    "C07_formula_signed_group",
    "C07_malformed_raises",
    "C07_leading_minus_raises"
   ],
   "note": "fuel 2*n!+1 suffices; formulas are rendered words over any characters but '-' and '='"
  },
  {
   "property": "C08",
   "status": "proved",
   "theorems": [
    "C08_symmetric_basis",
    "C08_full_base",
    "C08_all_permutations_group"
   ],
   "note": "exact arithmetic; covers groups from formulas (C07) and the full symmetric group"
  },
  {
   "property": "C09",
   "status": "proved",
   "theorems": [
    "C09_return_dim",
    "C09_return_dim_sorted",
    "C09_unsorted_iteration_refuted"
   ],
   "note": "any iteration order; C09_unsorted_iteration_refuted: with an unsorted frozenset iteration order the dimension itself is wrong"
  },
  {
   "property": "C10",
   "status": "proved",
   "theorems": [
    "C10_subrepr_spec",
    "C10_subrepr_group",
    "C10_subrepr_order"
   ],
   "note": ""
  },
  {
   "property": "C11",
   "status": "proved",
   "theorems": [
    "C11_propagates",
    "C11_missing_raises",
    "C11_foreign_key_raises",
    "C11_conflict_raises",
    "C11_equal_irreps_accepted_refuted"
   ],
   "note": "objects compared by identity as in the code; C11_equal_irreps_accepted_refuted shows the intended acceptance of equal irreps fails"
  },
  {
   "property": "C12",
   "status": "proved",
   "theorems": [
    "C12_accepts",
    "C12_sorted",
    "C12_simplify",
    "C12_simplify_array",
    "C12_sorted_simplify",
    "C12_empty"
   ],
   "note": "All lists of blocks; the order of the labels is any strict total order."
  },
  {
   "property": "C13",
   "status": "proved",
   "theorems": [
    "C13_recursion_smaller",
    "C13_terminates",
    "C13_greedy",
    "C13_covers",
    "C13_empty"
   ],
   "note": "All lists, groups and orders of iteration of the frozensets; irrep products, coefficients and eigensolver are arbitrary functions."
  },
  {
   "property": "C14",
   "status": "proved",
   "theorems": [
    "C14_normalize",
    "C14_zero_denominator"
   ],
   "note": ""
  },
  {
   "property": "C15",
   "status": "proved",
   "theorems": [
    "C15_best_approximation",
    "C15_below_bound",
    "C15_boundary_refuted",
    "C15_elementwise",
    "C15_array_terminates"
   ],
   "note": "array loop = elementwise; the boundary d = m is refuted: C15_boundary_refuted"
  },
  {
   "property": "C16",
   "status": "proved",
   "theorems": [
    "C16_int64",
    "C16_range"
   ],
   "note": "all operations in wrap-around int64, |n|, d, m < 2**62; numpy's x // 0 = 0"
  },
  {
   "property": "C17",
   "status": "proved",
   "theorems": [
    "C17_accuracy",
    "C17_accuracy_at_2p51",
    "C17_large_raises",
    "C17_zero"
   ],
   "note": "float divisions only assumed within relative error 2**-53"
  },
  {
   "property": "C18",
   "status": "proved",
   "theorems": [
    "C18_gram_schmidt",
    "C18_exact",
    "C18_not_matrix"
   ],
   "note": "gram_schmidt for every matrix and every epsilon >= 0 (orthonormal, inside the row space, residual at most epsilon), exactly the row space for epsilon = 0, and the assertion on the number of axes.  Exact arithmetic, identity rounding."
  },
  {
   "property": "C19",
   "status": "proved",
   "theorems": [
    "C19_nullspace",
    "C19_not_matrix"
   ],
   "note": "For every matrix with the gap stated and any eigensolver that is correct on Hermitian matrices (one is constructed, eigh0, from a proof of the spectral theorem)."
  },
  {
   "property": "C20",
   "status": "proved",
   "theorems": [
    "C20_sequential_nullspace"
   ],
   "note": "The generator is modelled as the list of its elements; the consumed prefix, the stopping rule and the ValueError are all characterised."
  },
  {
   "property": "C21",
   "status": "proved",
   "theorems": [
    "C21_infer_change_of_basis",
    "C21_mismatch",
    "C21_empty",
    "C21_rep"
   ],
   "note": "util.infer_change_of_basis and the version for representations, with the normalisation; error cases included."
  },
  {
   "property": "C22",
   "status": "proved",
   "theorems": [
    "C22_clebsch_gordan"
   ],
   "note": "Generic clebsch_gordan: equivariance for Lie and discrete generators, completeness, orthogonality.  The generic fallback only; tabulated irreps are C36, C38, C65."
  },
  {
   "property": "C23",
   "status": "proved",
   "theorems": [
    "C23_direct_sum",
    "C23_algebra_mismatch",
    "C23_lie_dim_mismatch",
    "C23_discrete_mismatch"
   ],
   "note": "exact arithmetic; a representation of a theory: structure constants, word relations, adjoint action"
  },
  {
   "property": "C24",
   "status": "proved",
   "theorems": [
    "C24_tensor_product",
    "C24_entries",
    "C24_discrete_mismatch"
   ],
   "note": "generic overload"
  },
  {
   "property": "C25",
   "status": "proved",
   "theorems": [
    "C25_tensor_power",
    "C25_digits",
    "C25_negative_diverges"
   ],
   "note": "dim >= 1; fuel > n suffices; negative n diverges"
  },
  {
   "property": "C26",
   "status": "proved",
   "theorems": [
    "C26_group_product",
    "C26_factors_commute",
    "C26_three_factors",
    "C26_tabulated_product"
   ],
   "note": "also the three-factor overload and TabulatedIrrepProduct's arrays"
  },
  {
   "property": "C27",
   "status": "proved",
   "theorems": [
    "C27_reduced",
    "C27_mul",
    "C27_irrep",
    "C27_change_basis",
    "C27_invertible",
    "C27_composition",
    "C27_pinv_penrose"
   ],
   "note": "generic overload and the ReducedRep/MulIrrep/TabulatedIrrep overloads"
  },
  {
   "property": "C28",
   "status": "proved",
   "theorems": [
    "C28_change_algebra",
    "C28_back"
   ],
   "note": "exact Moore-Penrose inverse"
  },
  {
   "property": "C29",
   "status": "proved",
   "theorems": [
    "C29_conjugate_real",
    "C29_involution",
    "C29_complex_algebra_refuted"
   ],
   "note": "real structure constants; refuted otherwise"
  },
  {
   "property": "C30",
   "status": "proved",
   "theorems": [
    "C30_create_trivial",
    "C30_is_trivial",
    "C30_neutral"
   ],
   "note": ""
  },
  {
   "property": "C31",
   "status": "proved",
   "theorems": [
    "C31_mul",
    "C31_mul_zero_refuted",
    "C31_reduced",
    "C31_no_generators_refuted",
    "C31_from_irreps"
   ],
   "note": "mul = 0 and a zero-dimensional algebra raise: C31_mul_zero_refuted, C31_no_generators_refuted"
  },
  {
   "property": "C32",
   "status": "proved",
   "theorems": [
    "C32_su2_irreps",
    "C32_su2_reduced",
    "C32_irreps",
    "C32_mul",
    "C32_mul_irrep",
    "C32_irrep_mul",
    "C32_reduced",
    "C32_mul_reduced",
    "C32_irrep_reduced",
    "C32_reduced_mul_swapped",
    "C32_reduced_irrep_swapped",
    "C32_reduced_mul_refuted",
    "C32_so3_reduced",
    "C32_sl2c_reduced",
    "C32_so3_irreps",
    "C32_o3_irreps",
    "C32_sl2c_irreps"
   ],
   "note": "irreps with equivariant, complete Clebsch-Gordan coefficients; for SU2, SO3, O3 and SL2C that hypothesis is discharged (C32_su2_*, C32_so3_*, C32_o3_*, C32_sl2c_*); the swapped overloads are refuted: C32_reduced_mul_refuted"
  },
  {
   "property": "C33",
   "status": "proved",
   "theorems": [
    "C33_check",
    "C33_check_rep",
    "C33_check_exact",
    "C33_check_empty",
    "C33_check_shape",
    "C33_infer",
    "C33_unique",
    "C33_antisymmetric",
    "C33_jacobi",
    "C33_infer_sound",
    "C33_infer_none",
    "C33_infer_empty",
    "C33_complex_refuted",
    "C33_from_generators",
    "C33_from_generators_rep"
   ],
   "note": "The check is characterised entrywise for all shapes and tolerances. Inference is proved for linearly independent generators with real structure constants; C33_complex_refuted shows that nonreal constants give None. np.linalg.pinv is the exact Moore-Penrose inverse."
  },
  {
   "property": "C34",
   "status": "proved",
   "theorems": [
    "C34_exp_map",
    "C34_singular",
    "C34_power",
    "C34_tensor_product",
    "C34_direct_sum"
   ],
   "note": "scipy.linalg.expm is a parameter; for products it is assumed to be multiplicative on the Lie algebra element at hand. Exact arithmetic, integer discrete parameters."
  },
  {
   "property": "C35",
   "status": "proved",
   "theorems": [
    "C35_matrix_power",
    "C35_modulo",
    "C35_exp_map",
    "C35_exp_map_len"
   ],
   "note": "Exact arithmetic over exact integers n; jnp.empty returns arbitrary contents. dtype promotion inside lax.cond and lax.scan is not modelled."
  },
  {
   "property": "C36",
   "status": "proved",
   "theorems": [
    "C36_table",
    "C36_su2_rep"
   ],
   "note": "also the Casimir operator; exact arithmetic"
  },
  {
   "property": "C37",
   "status": "proved",
   "theorems": [
    "C37_change_of_basis_unitary",
    "C37_so3_rep",
    "C37_o3_rep",
    "C37_o3_same_rotations",
    "C37_z2_rep",
    "C37_su2real_half",
    "C37_su2real_int"
   ],
   "note": "also Z2; exact arithmetic"
  },
  {
   "property": "C38",
   "status": "proved",
   "theorems": [
    "C38_sl2c",
    "C38_sl2c_algebra"
   ],
   "note": "the six generators for every (l, k), against commutators written out and against the tabulated constants"
  },
  {
   "property": "C39",
   "status": "proved",
   "theorems": [
    "C39_so13",
    "C39_so13_complex",
    "C39_four_vector"
   ],
   "note": "SO13.continuous_generators for every (l, k), even or odd: eigh and scipy's sqrtm are parameters assumed correct on the matrices they are given (both assumptions are shown satisfiable by eigh0_correct and sqrtm0_correct). The spectral gap of infer_change_of_basis is proved, not assumed (CasimirGap). The result satisfies the tabulated structure constants, is absolutely irreducible, and is real when l = k. four_vector satisfies the algebra and preserves diag(1, -1, -1, -1). The dimension bound d^2 eps^2 < 1 is the one of gram_schmidt."
  },
  {
   "property": "C40",
   "status": "proved",
   "theorems": [
    "C40_su2",
    "C40_su2_real"
   ],
   "note": "exact arithmetic; also real entries and the m3 = m1 + m2 rule"
  },
  {
   "property": "C41",
   "status": "proved",
   "theorems": [
    "C41_su2_orthonormal",
    "C41_su2_complete"
   ],
   "note": "orthonormal columns for every pair of labels, and completeness over the selection rule"
  },
  {
   "property": "C42",
   "status": "proved",
   "theorems": [
    "C42_su2",
    "C42_su2_members",
    "C42_so3",
    "C42_so3_members",
    "C42_o3",
    "C42_o3_members",
    "C42_z2",
    "C42_sl2c",
    "C42_sl2c_members",
    "C42_so13",
    "C42_so13_members",
    "C42_product",
    "C42_su2real_members",
    "C42_su2real_balance",
    "C42_su2real_refuted"
   ],
   "note": "also SU2Real's list and TabulatedIrrepProduct; C42_su2real_refuted: SU2Real's dimensions do not balance for two half-integer spins"
  },
  {
   "property": "C43",
   "status": "proved",
   "theorems": [
    "C43_su2",
    "C43_so3",
    "C43_o3",
    "C43_z2",
    "C43_sl2c"
   ],
   "note": "SU2, SO3, O3, Z2 and SL2C, for every triple of labels"
  },
  {
   "property": "C44",
   "status": "proved",
   "theorems": [
    "C44_su2",
    "C44_so3",
    "C44_su2real",
    "C44_o3",
    "C44_z2",
    "C44_sl2c",
    "C44_so13",
    "C44_su2_",
    "C44_su3",
    "C44_su4"
   ],
   "note": "SUN itself and TabulatedIrrepProduct have no iterator (NotImplementedError)"
  },
  {
   "property": "C45",
   "status": "proved",
   "theorems": [
    "C45_su2",
    "C45_so3",
    "C45_su2real",
    "C45_o3",
    "C45_z2",
    "C45_sl2c",
    "C45_so13",
    "C45_sun",
    "C45_product"
   ],
   "note": "Z2 on labels 1 and -1, the others on all integers"
  },
  {
   "property": "C46",
   "status": "proved",
   "theorems": [
    "C46_dim",
    "C46_refused"
   ],
   "note": "All N and all weights; weights that are not dominant are refused. The proof is the branching rule for the Weyl product."
  },
  {
   "property": "C47",
   "status": "proved",
   "theorems": [
    "C47_patterns",
    "C47_is_valid_M",
    "C47_is_valid_M_only",
    "C47_negative_refuted"
   ],
   "note": "All dominant weights; C47_negative_refuted: is_valid_M refuses patterns of weights with negative entries."
  },
  {
   "property": "C48",
   "status": "proved",
   "theorems": [
    "C48_index",
    "C48_too_large",
    "C48_negative_refuted"
   ],
   "note": "All dominant weights and indices; C48_negative_refuted: a negative index is not refused."
  },
  {
   "property": "C49",
   "status": "proved",
   "theorems": [
    "C49_coeff",
    "C49_outside_refuted",
    "C49_transpose"
   ],
   "note": "Coefficients of every move between patterns of a dominant weight; the matrices for weights with last entry >= 0 (SUN has 0). C49_outside_refuted: a move that leaves the patterns can divide by zero (the ladders never make one)."
  },
  {
   "property": "C50",
   "status": "proved",
   "theorems": [
    "C50_commutators",
    "C50_negative_refuted"
   ],
   "note": "All N and dominant weights with last entry >= 0, also the relations between different levels. C50_negative_refuted: false for weights with a negative entry, which SU3 and SU4 accept. Exact arithmetic."
  },
  {
   "property": "C51",
   "status": "proved",
   "theorems": [
    "C51_weights",
    "C51_refused",
    "C51_balance",
    "C51_character",
    "C51_mul"
   ],
   "note": "All N and all dominant S1, S2 of length N. The character identity is proved at the elements of the torus with distinct eigenvalues, over any numFieldType."
  },
  {
   "property": "C52",
   "status": "proved",
   "theorems": [
    "C52_eldest",
    "C52_multiplicity_free",
    "C52_SU2",
    "C52_symmetric",
    "C52_multiplicity_refuted",
    "C52_adjoint_refuted",
    "C52_generators"
   ],
   "note": "The claim as first written (equivariance of every slice) is false. Proved: for all S1, S2, S3 the eldest array is an orthonormal basis of the highest weight vectors; for S3 without weight multiplicities (all of SU(2), the symmetric powers of SU(N)) the slice 0 is isometric and equivariant. Refuted: the slices alpha >= 1 for all S1, S2, S3 (C52_multiplicity_refuted) and the slice 0 for S3 = (2,1,0) (C52_adjoint_refuted). eigh exact, eps below a bound that depends on the weights."
  },
  {
   "property": "C53",
   "status": "proved",
   "theorems": [
    "C53_generators",
    "C53_natural",
    "C53_natural_raises",
    "C53_natural_faithful",
    "C53_standard",
    "C53_basis",
    "C53_standard_raises",
    "C53_standard_faithful",
    "C53_trivial",
    "C53_trivial_none",
    "C53_create_trivial",
    "C53_relations",
    "C53_permutation_matrix",
    "C53_permutation_matrix_raises",
    "C53_permutation_mul",
    "C53_transposition",
    "C53_transposition_raises"
   ],
   "note": "All n; the generators are shown to generate the symmetric group. For n <= 0 Sn_trivial returns None."
  },
  {
   "property": "C54",
   "status": "proved",
   "theorems": [
    "C54_entries",
    "C54_regular",
    "C54_group",
    "C54_range",
    "C54_shape",
    "C54_shape_refuted"
   ],
   "note": "All finite groups; C54_shape_refuted: a table of shape (n, 1) is broadcast rather than refused."
  },
  {
   "property": "C55",
   "status": "proved",
   "theorems": [
    "C55_unique",
    "C55_clustering_unique",
    "C55_labels",
    "C55_equal",
    "C55_diverges",
    "C55_empty",
    "C55_scalar",
    "C55_exists",
    "C55_eigenspaces"
   ],
   "note": "All arrays and tolerances; C55_diverges shows that the loop never ends for tol <= 0. Labels are None instead of -1; integer dtypes are not modelled."
  },
  {
   "property": "C56",
   "status": "proved",
   "theorems": [
    "C56_defined",
    "C56_rejected",
    "C56_simple",
    "C56_cartan",
    "C56_cartan_pairing",
    "C56_positive",
    "C56_simple_positive",
    "C56_fundamental",
    "C56_fundamental_D_refuted",
    "C56_weyl_vector",
    "C56_coxeter",
    "C56_maximal",
    "C56_maximal_D2_refuted",
    "C56_tsDim_refuted"
   ],
   "note": "All ranks, exact rational arithmetic. Duality of the fundamental weights is proved for A, B, C and D_2 and refuted for D_n, n > 2 (C56_fundamental_D_refuted). C56_tsDim_refuted: the first component of structure_algebra is the length of the drawing of the diagram. C56_maximal_D2_refuted: D_2 is not simple."
  },
  {
   "property": "C57",
   "status": "proved",
   "theorems": [
    "C57_small",
    "C57_three_refuted",
    "C57_even",
    "C57_dependent_refuted",
    "C57_odd_refuted"
   ],
   "note": "All n, over any numFieldType. The claim that the matrices preserve the form is proved for even n and refuted for n = 3 (ValueError) and odd n >= 5 (C57_three_refuted, C57_odd_refuted)."
  },
  {
   "property": "C58",
   "status": "proved",
   "theorems": [
    "C58_int",
    "C58_numeral",
    "C58_refused",
    "C58_su2",
    "C58_so3",
    "C58_o3",
    "C58_o3_letter",
    "C58_z2",
    "C58_sl2c",
    "C58_so13",
    "C58_weights",
    "C58_sun",
    "C58_sun_blank",
    "C58_mul",
    "C58_mul_one",
    "C58_terms",
    "C58_reduced",
    "C58_repr_refuted"
   ],
   "note": "All labels, multiplicities and lists of terms; ASCII white space and digits only. C58_repr_refuted: __repr__ of a MulIrrep is not the format of from_string."
  },
  {
   "property": "C59",
   "status": "proved",
   "theorems": [
    "C59_is_irreducible",
    "C59_unitary",
    "C59_irreducible",
    "C59_reducible_refuted"
   ],
   "note": "The commutant criterion in general, irreducibility for unitary representations, and a refutation (C59_reducible_refuted): for a non-unitary representation True does not mean irreducible."
  },
  {
   "property": "C60",
   "status": "proved",
   "theorems": [
    "C60_is_real",
    "C60_is_unitary",
    "C60_exact",
    "C60_direct_sum",
    "C60_tensor_product",
    "C60_change_basis"
   ],
   "note": "Exact meaning of the is_unitary test, its preservation for exactly unitary representations, is_real.  C60_tolerance shows an H that is accepted without being unitary."
  },
  {
   "property": "C61",
   "status": "proved",
   "theorems": [
    "C61_mul",
    "C61_reduced",
    "C61_draw",
    "C61_reduce",
    "C61_multiplicity_refuted",
    "C61_multiplicity_free",
    "C61_weights",
    "C61_complex_refuted",
    "C61_complex_simple",
    "C61_eig_exists",
    "C61_generic",
    "C61_real_weights"
   ],
   "note": "The claim as first written (also with multiplicity and complex generators) is false. Proved over any numClosedFieldType, for all real representations and all dimensions: reduce either raises ValueError or returns a ReducedRep with the generators of rep and irreducible, pairwise inequivalent summands; when the commutant acts by scalars on the eigenspaces of one of its elements (no irrep occurs twice) it succeeds for all weights outside finitely many hyperplanes (C61_generic), in particular for some real weights in (0,1) (C61_real_weights). Refuted when an irrep occurs twice (C61_multiplicity_refuted) and for complex generators (C61_complex_refuted). eigh exact, eig exact on diagonalizable matrices (C61_eig_exists: there is such a function); the thresholds of the four calls are separate parameters, each below a bound that depends on the representation and the earlier ones."
  },
  {
   "property": "C62",
   "status": "proved",
   "theorems": [
    "C62_intersection",
    "C62_orthonormal",
    "C62_empty",
    "C62_mismatch",
    "C62_complex_refuted"
   ],
   "note": "All real bases of positive length, for all small enough thresholds (and an explicit bound for orthonormal bases); eigh is any function correct and real on real symmetric matrices. C62_complex_refuted: complex bases are handled wrongly, because the code transposes without conjugating."
  },
  {
   "property": "C63",
   "status": "proved",
   "theorems": [
    "C63_take",
    "C63_axis",
    "C63_vmap",
    "C63_tuple",
    "C63_empty",
    "C63_empty_position",
    "C63_empty_position_refuted",
    "C63_len",
    "C63_nothing_mapped",
    "C63_no_axis",
    "C63_lengths_differ",
    "C63_fun_error",
    "C63_shapes_differ"
   ],
   "note": "All functions, axes and shapes; outputs that mix arrays and tuples are not modelled. C63_empty_position_refuted: with negative out_axes the empty array has its axis elsewhere than np.stack would put it."
  },
  {
   "property": "C64",
   "status": "proved",
   "theorems": [
    "C64_sqrt_rational_fixed",
    "C64_default",
    "C64_boundary_refuted"
   ],
   "note": "the final float sqrt is not modelled; C64_boundary_refuted: denominator max_denominator**2+1 rounds to 0"
  },
  {
   "property": "C65",
   "status": "proved",
   "theorems": [
    "C65_so3",
    "C65_so3_orthonormal",
    "C65_so3_complete",
    "C65_o3",
    "C65_o3_complete",
    "C65_z2",
    "C65_sl2c",
    "C65_sl2c_orthonormal",
    "C65_sl2c_complete"
   ],
   "note": "equivariance, reality (SO3, O3), orthonormal columns (SO3, SL2C; O3 is SO3 with a parity) and completeness"
  },
  {
   "property": "C66",
   "status": "proved",
   "theorems": [
    "C66_extend_basis",
    "C66_complement"
   ],
   "note": "Both values of returns, and the orthogonality of the complement for epsilon = 0."
  },
  {
   "property": "C67",
   "status": "proved",
   "theorems": [
    "C67_continuous",
    "C67_discrete",
    "C67_su2",
    "C67_o3",
    "C67_o3_parity",
    "C67_z2"
   ],
   "note": "For every basis that is returned, and frozensets iterated in increasing order (true of indices below 8 in CPython). The matrices of the generators are any that satisfy X Q = Q B. For SU2, O3 and Z2 no hypothesis on the coefficients is left."
  },
  {
   "property": "C68",
   "status": "proved",
   "theorems": [
    "C68_rejected",
    "C68_trivial",
    "C68_positive",
    "C68_vector",
    "C68_vector_spn",
    "C68_spin_refuted"
   ],
   "note": "All labels; exact rational arithmetic. That Weyl's formula gives an integer is not proved (the code truncates). C68_spin_refuted: consequence of the wrong fundamental weight of D_n."
  },
  {
   "property": "C69",
   "status": "proved",
   "theorems": [
    "C69_irreducible",
    "C69_highest"
   ],
   "note": "All N and all dominant S with 0 <= last S, over any numClosedFieldType."
  },
  {
   "property": "C70",
   "status": "proved",
   "theorems": [
    "C70_representation",
    "C70_accepted",
    "C70_homomorphism",
    "C70_faithful",
    "C70_irreducible",
    "C70_trivial",
    "C70_negative_refuted"
   ],
   "note": "All N >= 2 and all dominant S with 0 <= last S, over any numClosedFieldType; exact arithmetic, pinv is the Moore-Penrose inverse, round_to_sqrt_rational the identity. C70_negative_refuted: false for weights with a negative entry, which SU2_, SU3 and SU4 accept."
  },
  {
   "property": "C71",
   "status": "proved",
   "theorems": [
    "C71_antisymmetric_refuted",
    "C71_symmetric_square",
    "C71_single_refuted",
    "C71_su2_symmetric_power",
    "C71_tolerance",
    "C71_symmetric",
    "C71_su2_irreducible",
    "C71_su2",
    "C71_o3_irreducible",
    "C71_o3",
    "C71_z2"
   ],
   "note": "All numbers of indices, all groups and real representations (with or without Q), over any numClosedFieldType, with instances for SU2, O3 and Z2; for all tolerances below a bound that depends on the input. round_to_sqrt_rational is the identity and eigh any function correct and real on real symmetric input. One index with the sign -1 in the group is excluded: the code ignores it (C71_single_refuted). C71_antisymmetric_refuted: ij=-ji raises for every irrep of SU2; C71_symmetric_square: ij=ji succeeds for every irrep of SU2."
  },
  {
   "property": "C72",
   "status": "proved",
   "theorems": [
    "C72_complete",
    "C72_su2",
    "C72_o3",
    "C72_z2",
    "C72_su2_symmetric_power",
    "C72_su2_symmetric_square"
   ],
   "note": "C72_complete: for any family of irreps whose Clebsch-Gordan arrays are real, equivariant and complete and whose generators generate all the matrices of every finite set of irreps; the instances for SU2, O3 and Z2 are exact (span = symmetric tensors). Same conditions as C71: tolerances below a bound that depends on the input, round_to_sqrt_rational the identity, eigh correct and real on real symmetric input, result Ok (it raises for ij=-ji on an irrep of SU2, C71_antisymmetric_refuted). C72_su2_symmetric_square: an input for which the result is there."
  },
  {
   "property": "C73",
   "status": "proved",
   "theorems": [
    "C73_independent",
    "C73_unique",
    "C73_su2",
    "C73_o3",
    "C73_z2",
    "C73_su2_symmetric_power",
    "C73_su2_symmetric_square"
   ],
   "note": "C73_independent: for any family of irreps of positive dimension whose Clebsch-Gordan arrays are real, complete and of the right total dimension; instances for SU2, O3 and Z2. Same conditions as C71 on the tolerances, round_to_sqrt_rational and eigh. C73_su2_symmetric_power: the binomial dimension of every symmetric power that is returned; C73_su2_symmetric_square: an input for which the result is there, with (n+1)(n+2)/2 columns."
  },
  {
   "property": "C74",
   "status": "proved",
   "theorems": [
    "C74_list",
    "C74_su2",
    "C74_o3",
    "C74_z2",
    "C74_example"
   ],
   "note": "C74_list: for any family of irreps of positive dimension with a product that never raises and complete Clebsch-Gordan arrays of the right total dimension; instances for SU2 (with the equivariance of C67), O3 and Z2, complex Q allowed. In the model the recursion has a fuel of at least the number of representations. frozensets are iterated in increasing order."
  },
  {
   "property": "C75",
   "status": "proved",
   "theorems": [
    "C75_accepted",
    "C75_value",
    "C75_given",
    "C75_order",
    "C75_fixes",
    "C75_su2",
    "C75_o3",
    "C75_z2",
    "C75_same_irrep_refuted",
    "C75_symmetric_square",
    "C75_antisymmetric_square_refuted"
   ],
   "note": "C75_accepted, C75_value, C75_order and C75_fixes: the keyword arguments, for any signed group. C75_su2, C75_o3 and C75_z2: the whole function on a formula whose terms rearrange distinct indices, under the conditions of C71 to C73 (real Q, tolerances below a bound that depends on the input, round_to_sqrt_rational the identity, eigh correct on real symmetric input); a single index with a minus sign is excluded, since the code ignores that sign (C71_single_refuted). C75_same_irrep_refuted and C75_antisymmetric_square_refuted: formulas that raise; C75_symmetric_square: one that returns."
  },
  {
   "property": "C76",
   "status": "proved",
   "theorems": [
    "C76_real",
    "C76_not_real",
    "C76_several",
    "C76_checked",
    "C76_discrete_refuted"
   ],
   "note": "C76_real: exact arithmetic, round_fn the identity, eigh and scipy.linalg.sqrtm correct (sqrtm returns a square root that is a polynomial in a normal invertible input), at least one generator, and no eigenvalue of the linear system strictly between 0 and the tolerance. C76_not_real and C76_several: the two ways to raise. C76_checked: no hypotheses. C76_discrete_refuted: without continuous generators the code returns non-real matrices of a representation that has no real form, instead of raising. C76_example: the dihedral group of the square in a complex basis."
  }
 ]
}