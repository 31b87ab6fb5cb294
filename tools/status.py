ST["C01"] = ("proved", "from_int/to_int/group; rand only draws the index, randomness not modelled")
ST["C02"] = ("proved", "entries are naturals")
ST["C03"] = ("proved", "any enumeration order of the input set; fuel n!+1 suffices")
ST["C04"] = ("proved", "sets of permutations of one length")
ST["C05"] = ("proved", "against mathcomp odd_perm")
ST["C06"] = ("proved", "also: divergence on every non-permutation with entries in range")
ST["C07"] = ("proved", "fuel 2*n!+1 suffices; formulas are rendered words over any characters but '-' and '='")
ST["C08"] = ("proved", "exact arithmetic; covers groups from formulas (C07) and the full symmetric group")
ST["C09"] = ("proved", "any iteration order; C09_unsorted_iteration_refuted: with an unsorted frozenset iteration order the dimension itself is wrong")
ST["C10"] = ("proved", "")
ST["C11"] = ("proved", "objects compared by identity as in the code; C11_equal_irreps_accepted_refuted shows the intended acceptance of equal irreps fails")
ST["C14"] = ("proved", "")
ST["C15"] = ("proved", "array loop = elementwise; the boundary d = m is refuted: C15_boundary_refuted")
ST["C16"] = ("proved", "all operations in wrap-around int64, |n|, d, m < 2**62; numpy's x // 0 = 0")
ST["C17"] = ("proved", "float divisions only assumed within relative error 2**-53")
ST["C64"] = ("proved", "the final float sqrt is not modelled; C64_boundary_refuted: denominator max_denominator**2+1 rounds to 0")
ST["C23"] = ("proved", "exact arithmetic; a representation of a theory: structure constants, word relations, adjoint action")
ST["C24"] = ("proved", "generic overload")
ST["C25"] = ("proved", "dim >= 1; fuel > n suffices; negative n diverges")
ST["C26"] = ("proved", "also the three-factor overload and TabulatedIrrepProduct's arrays")
ST["C28"] = ("proved", "exact Moore-Penrose inverse")
ST["C29"] = ("proved", "real structure constants; refuted otherwise")
ST["C30"] = ("proved", "")
ST["C27"] = ("proved", "generic overload and the ReducedRep/MulIrrep/TabulatedIrrep overloads")
ST["C31"] = ("proved", "mul = 0 and a zero-dimensional algebra raise: C31_mul_zero_refuted, C31_no_generators_refuted")
ST["C32"] = ("proved", "irreps with equivariant, complete Clebsch-Gordan coefficients; for SU2, SO3, O3 and SL2C that hypothesis is discharged (C32_su2_*, C32_so3_*, C32_o3_*, C32_sl2c_*); the swapped overloads are refuted: C32_reduced_mul_refuted")
ST["C42"] = ("proved", "also SU2Real's list and TabulatedIrrepProduct; C42_su2real_refuted: SU2Real's dimensions do not balance for two half-integer spins")
ST["C44"] = ("proved", "SUN itself and TabulatedIrrepProduct have no iterator (NotImplementedError)")
ST["C45"] = ("proved", "Z2 on labels 1 and -1, the others on all integers")
ST["C36"] = ("proved", "also the Casimir operator; exact arithmetic")
ST["C37"] = ("proved", "also Z2; exact arithmetic")
ST["C40"] = ("proved", "exact arithmetic; also real entries and the m3 = m1 + m2 rule")
ST["C41"] = ("proved", "orthonormal columns for every pair of labels, and completeness over the selection rule")
ST["C38"] = ("proved", "the six generators for every (l, k), against commutators written out and against the tabulated constants")
ST["C43"] = ("proved", "SU2, SO3, O3, Z2 and SL2C, for every triple of labels")
ST["C65"] = ("proved", "equivariance, reality (SO3, O3), orthonormal columns (SO3, SL2C; O3 is SO3 with a parity) and completeness")

ST["C18"] = ("proved", "gram_schmidt for every matrix and every epsilon >= 0 (orthonormal, inside the row space, residual at most epsilon), exactly the row space for epsilon = 0, and the assertion on the number of axes.  Exact arithmetic, identity rounding.")
ST["C19"] = ("proved", "For every matrix with the gap stated and any eigensolver that is correct on Hermitian matrices (one is constructed, eigh0, from a proof of the spectral theorem).")
ST["C20"] = ("proved", "The generator is modelled as the list of its elements; the consumed prefix, the stopping rule and the ValueError are all characterised.")
ST["C21"] = ("proved", "util.infer_change_of_basis and the version for representations, with the normalisation; error cases included.")
ST["C22"] = ("proved", "Generic clebsch_gordan: equivariance for Lie and discrete generators, completeness, orthogonality.  The generic fallback only; tabulated irreps are C36, C38, C65.")
ST["C59"] = ("proved", "The commutant criterion in general, irreducibility for unitary representations, and a refutation (C59_reducible_refuted): for a non-unitary representation True does not mean irreducible.")
ST["C60"] = ("proved", "Exact meaning of the is_unitary test, its preservation for exactly unitary representations, is_real.  C60_tolerance shows an H that is accepted without being unitary.")
ST["C66"] = ("proved", "Both values of returns, and the orthogonality of the complement for epsilon = 0.")
ST["C33"] = ("proved", "The check is characterised entrywise for all shapes and tolerances. Inference is proved for linearly independent generators with real structure constants; C33_complex_refuted shows that nonreal constants give None. np.linalg.pinv is the exact Moore-Penrose inverse.")
ST["C34"] = ("proved", "scipy.linalg.expm is a parameter; for products it is assumed to be multiplicative on the Lie algebra element at hand. Exact arithmetic, integer discrete parameters.")
ST["C35"] = ("proved", "Exact arithmetic over exact integers n; jnp.empty returns arbitrary contents. dtype promotion inside lax.cond and lax.scan is not modelled.")
ST["C63"] = ("proved", "All functions, axes and shapes; outputs that mix arrays and tuples are not modelled. C63_empty_position_refuted: with negative out_axes the empty array has its axis elsewhere than np.stack would put it.")
ST["C53"] = ("proved", "All n; the generators are shown to generate the symmetric group. For n <= 0 Sn_trivial returns None.")
ST["C54"] = ("proved", "All finite groups; C54_shape_refuted: a table of shape (n, 1) is broadcast rather than refused.")
ST["C55"] = ("proved", "All arrays and tolerances; C55_diverges shows that the loop never ends for tol <= 0. Labels are None instead of -1; integer dtypes are not modelled.")
ST["C39"] = ("proved", "SO13.continuous_generators for every (l, k), even or odd: eigh and scipy's sqrtm are parameters assumed correct on the matrices they are given (both assumptions are shown satisfiable by eigh0_correct and sqrtm0_correct). The spectral gap of infer_change_of_basis is proved, not assumed (CasimirGap). The result satisfies the tabulated structure constants, is absolutely irreducible, and is real when l = k. four_vector satisfies the algebra and preserves diag(1, -1, -1, -1). The dimension bound d^2 eps^2 < 1 is the one of gram_schmidt.")
ST["C46"] = ("proved", "All N and all weights; weights that are not dominant are refused. The proof is the branching rule for the Weyl product.")
ST["C47"] = ("proved", "All dominant weights; C47_negative_refuted: is_valid_M refuses patterns of weights with negative entries.")
ST["C48"] = ("proved", "All dominant weights and indices; C48_negative_refuted: a negative index is not refused.")
ST["C49"] = ("proved", "Coefficients of every move between patterns of a dominant weight; the matrices for weights with last entry >= 0 (SUN has 0). C49_outside_refuted: a move that leaves the patterns can divide by zero (the ladders never make one).")
ST["C50"] = ("proved", "All N and dominant weights with last entry >= 0, also the relations between different levels. C50_negative_refuted: false for weights with a negative entry, which SU3 and SU4 accept. Exact arithmetic.")
ST["C62"] = ("proved", "All real bases of positive length, for all small enough thresholds (and an explicit bound for orthonormal bases); eigh is any function correct and real on real symmetric matrices. C62_complex_refuted: complex bases are handled wrongly, because the code transposes without conjugating.")
ST["C58"] = ("proved", "All labels, multiplicities and lists of terms; ASCII white space and digits only. C58_repr_refuted: __repr__ of a MulIrrep is not the format of from_string.")
ST["C12"] = ("proved", "All lists of blocks; the order of the labels is any strict total order.")
ST["C13"] = ("proved", "All lists, groups and orders of iteration of the frozensets; irrep products, coefficients and eigensolver are arbitrary functions.")
ST["C67"] = ("proved", "For every basis that is returned, and frozensets iterated in increasing order (true of indices below 8 in CPython). The matrices of the generators are any that satisfy X Q = Q B. For SU2, O3 and Z2 no hypothesis on the coefficients is left.")
ST["C56"] = ("proved", "All ranks, exact rational arithmetic. Duality of the fundamental weights is proved for A, B, C and D_2 and refuted for D_n, n > 2 (C56_fundamental_D_refuted). C56_tsDim_refuted: the first component of structure_algebra is the length of the drawing of the diagram. C56_maximal_D2_refuted: D_2 is not simple.")
ST["C68"] = ("proved", "All labels; exact rational arithmetic. That Weyl's formula gives an integer is not proved (the code truncates). C68_spin_refuted: consequence of the wrong fundamental weight of D_n.")
ST["C57"] = ("proved", "All n, over any numFieldType. The claim that the matrices preserve the form is proved for even n and refuted for n = 3 (ValueError) and odd n >= 5 (C57_three_refuted, C57_odd_refuted).")
ST["C51"] = ("proved", "All N and all dominant S1, S2 of length N. The character identity is proved at the elements of the torus with distinct eigenvalues, over any numFieldType.")
ST["C52"] = ("proved", "The claim as first written (equivariance of every slice) is false. Proved: for all S1, S2, S3 the eldest array is an orthonormal basis of the highest weight vectors; for S3 without weight multiplicities (all of SU(2), the symmetric powers of SU(N)) the slice 0 is isometric and equivariant. Refuted: the slices alpha >= 1 for all S1, S2, S3 (C52_multiplicity_refuted) and the slice 0 for S3 = (2,1,0) (C52_adjoint_refuted). eigh exact, eps below a bound that depends on the weights.")
ST["C69"] = ("proved", "All N and all dominant S with 0 <= last S, over any numClosedFieldType.")
ST["C70"] = ("proved", "All N >= 2 and all dominant S with 0 <= last S, over any numClosedFieldType; exact arithmetic, pinv is the Moore-Penrose inverse, round_to_sqrt_rational the identity. C70_negative_refuted: false for weights with a negative entry, which SU2_, SU3 and SU4 accept.")
ST["C61"] = ("proved", "The claim as first written (also with multiplicity and complex generators) is false. Proved over any numClosedFieldType, for all real representations and all dimensions: reduce either raises ValueError or returns a ReducedRep with the generators of rep and irreducible, pairwise inequivalent summands; when the commutant acts by scalars on the eigenspaces of one of its elements (no irrep occurs twice) it succeeds for all weights outside finitely many hyperplanes (C61_generic), in particular for some real weights in (0,1) (C61_real_weights). Refuted when an irrep occurs twice (C61_multiplicity_refuted) and for complex generators (C61_complex_refuted). eigh exact, eig exact on diagonalizable matrices (C61_eig_exists: there is such a function); the thresholds of the four calls are separate parameters, each below a bound that depends on the representation and the earlier ones.")
ST["C72"] = ("proved", "C72_complete: for any family of irreps whose Clebsch-Gordan arrays are real, equivariant and complete and whose generators generate all the matrices of every finite set of irreps; the instances for SU2, O3 and Z2 are exact (span = symmetric tensors). Same conditions as C71: tolerances below a bound that depends on the input, round_to_sqrt_rational the identity, eigh correct and real on real symmetric input, result Ok (it raises for ij=-ji on an irrep of SU2, C71_antisymmetric_refuted). C72_su2_symmetric_square: an input for which the result is there.")
ST["C71"] = ("proved", "All numbers of indices, all groups and real representations (with or without Q), over any numClosedFieldType, with instances for SU2, O3 and Z2; for all tolerances below a bound that depends on the input. round_to_sqrt_rational is the identity and eigh any function correct and real on real symmetric input. One index with the sign -1 in the group is excluded: the code ignores it (C71_single_refuted). C71_antisymmetric_refuted: ij=-ji raises for every irrep of SU2; C71_symmetric_square: ij=ji succeeds for every irrep of SU2.")
ST["C73"] = ("proved", "C73_independent: for any family of irreps of positive dimension whose Clebsch-Gordan arrays are real, complete and of the right total dimension; instances for SU2, O3 and Z2. Same conditions as C71 on the tolerances, round_to_sqrt_rational and eigh. C73_su2_symmetric_power: the binomial dimension of every symmetric power that is returned; C73_su2_symmetric_square: an input for which the result is there, with (n+1)(n+2)/2 columns.")
ST["C74"] = ("proved", "C74_list: for any family of irreps of positive dimension with a product that never raises and complete Clebsch-Gordan arrays of the right total dimension; instances for SU2 (with the equivariance of C67), O3 and Z2, complex Q allowed. In the model the recursion has a fuel of at least the number of representations. frozensets are iterated in increasing order.")
ST["C75"] = ("proved", "C75_accepted, C75_value, C75_order and C75_fixes: the keyword arguments, for any signed group. C75_su2, C75_o3 and C75_z2: the whole function on a formula whose terms rearrange distinct indices, under the conditions of C71 to C73 (real Q, tolerances below a bound that depends on the input, round_to_sqrt_rational the identity, eigh correct on real symmetric input); a single index with a minus sign is excluded, since the code ignores that sign (C71_single_refuted). C75_same_irrep_refuted and C75_antisymmetric_square_refuted: formulas that raise; C75_symmetric_square: one that returns.")
ST["C76"] = ("proved", "C76_real: exact arithmetic, round_fn the identity, eigh and scipy.linalg.sqrtm correct (sqrtm returns a square root that is a polynomial in a normal invertible input), at least one generator, and no eigenvalue of the linear system strictly between 0 and the tolerance. C76_not_real and C76_several: the two ways to raise. C76_checked: no hypotheses. C76_discrete_refuted: without continuous generators the code returns non-real matrices of a representation that has no real form, instead of raising. C76_example: the dihedral group of the square in a complex basis.")
