{"id": "C01", "title": "Permutation numbering is a bijection", "statement": "from_int(i, n) is a permutation of range(n) for every 0 <= i < n!; to_int(from_int(i, n)) == i; from_int(to_int(p), len(p)) == p and 0 <= to_int(p) < n! for every permutation p. Hence group(n) is exactly the set of all permutations of range(n) and has n! elements.", "quantifier": "every n, every index below n!, every permutation of every length", "why_tests_cant": "n! grows too fast to enumerate; a test sees only a few small n", "anchors": ["lie_nn/_src/discrete_groups/perm.py: from_int, to_int, group, rand"]}
{"id": "C02", "title": "Permutation tuples form a group under compose/inverse/identity", "statement": "For permutations of the same length, compose returns a permutation, is associative, identity(n) is neutral, and inverse(p) is a two-sided inverse; compose raises AssertionError exactly when an argument is not a permutation or the lengths differ.", "quantifier": "all tuples / all permutations of all lengths", "why_tests_cant": "unbounded length", "anchors": ["lie_nn/_src/discrete_groups/perm.py: is_perm, identity, compose, inverse"]}
{"id": "C03", "title": "germinate returns the generated subgroup", "statement": "For every set of permutations of one common length, germinate terminates and returns exactly the smallest set that contains the input and is closed under inverse and compose (for a non-empty input: the generated subgroup).", "quantifier": "every finite set of permutations of every length", "why_tests_cant": "termination and minimality quantify over all generating sets", "anchors": ["lie_nn/_src/discrete_groups/perm.py: germinate"]}
{"id": "C04", "title": "is_group decides being a subgroup", "statement": "For every set of permutations of a common length, is_group returns True iff the set is non-empty, contains the identity and is closed under inverse and compose.", "quantifier": "every finite set of permutations", "why_tests_cant": "all subsets of all symmetric groups", "anchors": ["lie_nn/_src/discrete_groups/perm.py: is_group"]}
{"id": "C05", "title": "The two sign functions agree and are homomorphisms", "statement": "permutation_sign (inversion parity, util) and perm.sign (cycle parity) return the same value in {1,-1} on every permutation; sign(compose(p,q)) == sign(p)*sign(q); a transposition has sign -1.", "quantifier": "all permutations of all lengths", "why_tests_cant": "n! inputs per length, all lengths", "anchors": ["lie_nn/_src/util.py: permutation_sign", "lie_nn/_src/discrete_groups/perm.py: sign, to_cycles"]}
{"id": "C06", "title": "to_cycles returns the cycle decomposition", "statement": "For every permutation, to_cycles terminates and returns pairwise disjoint cycles of length >= 2, each starting at its minimum and following p, covering exactly the non-fixed points.", "quantifier": "all permutations of all lengths", "why_tests_cant": "unbounded length; loop termination", "anchors": ["lie_nn/_src/discrete_groups/perm.py: to_cycles"]}
{"id": "C07", "title": "Index-symmetry formulas generate the full signed group", "statement": "For every well-formed formula (f0=[-]f1=[-]f2...), germinate_perm_repr terminates and returns exactly the smallest set of signed permutations containing the given ones and closed under inverse and product (signs multiply). Malformed formulas raise RuntimeError.", "quantifier": "every formula, any number of indices and generators", "why_tests_cant": "closure over arbitrary generator sets", "anchors": ["lie_nn/_src/reduced_tensor_product.py: germinate_perm_repr"]}
{"id": "C08", "title": "Permutation-symmetric tensor basis is orthonormal and complete", "statement": "For a signed permutation group G and dims constant on G-orbits, the rows of reduce_permutation_matrix(reduce_permutation_base(G, dims), dims) are orthonormal, each row satisfies the symmetry T[x] = s T[x.p] for all (s,p) in G, and every tensor with that symmetry is a linear combination of the rows.", "quantifier": "every signed permutation group, every tuple of dimensions, every tensor", "why_tests_cant": "all groups, dims and tensors; completeness is a for-all over tensors", "anchors": ["lie_nn/_src/reduced_tensor_product.py: reduce_permutation_base, reduce_permutation_matrix, full_base_fn"]}
{"id": "C09", "title": "return_dim agrees with the basis that is built", "statement": "reduce_subgroup_permutation(..., return_dim=True) equals the number of rows of the basis returned with return_dim=False.", "quantifier": "every index subset, group and dims", "why_tests_cant": "all groups and dims", "anchors": ["lie_nn/_src/reduced_tensor_product.py: reduce_subgroup_permutation"]}
{"id": "C10", "title": "subrepr_permutation is the pointwise stabiliser restricted to the subset", "statement": "For a signed group, subrepr_permutation(f, G) is exactly the set of (s, q) where some (s, p) in G fixes every index outside f and q is p restricted to sorted(f) renumbered 0..|f|-1; it is again a signed group of permutations of |f| points.", "quantifier": "every group and index subset", "why_tests_cant": "all groups and subsets", "anchors": ["lie_nn/_src/reduced_tensor_product.py: subrepr_permutation"]}
{"id": "C11", "title": "Irreps assignment reaches the whole orbit of an index", "statement": "When a formula is used, an irrep given for one index is propagated to every index in its orbit, whatever order the set of permutations is iterated in; an index without any given representative, a foreign key, or two related indices given by different objects raise RuntimeError. (The intended 'equal irreps for two related indices are accepted' is false: ReducedRep compares by identity.)", "quantifier": "every formula, every assignment, every set iteration order", "why_tests_cant": "iteration order of a Python set is a schedule a test cannot control", "anchors": ["lie_nn/_src/reduced_tensor_product.py: reduced_tensor_product_basis"]}
{"id": "C12", "title": "sorted()/simplify() of IrrepsArray only permute and merge blocks", "statement": "sorted() orders the (irrep, mul) blocks without losing or duplicating any; simplify() merges adjacent equal irreps; total dimension and the multiset of (irrep, column) pairs are unchanged; after sorted().simplify() no irrep label appears twice.", "quantifier": "every list of blocks", "why_tests_cant": "all block lists and orders", "anchors": ["lie_nn/_src/reduced_tensor_product.py: IrrepsArray.sorted, IrrepsArray.simplify"]}
{"id": "C13", "title": "The greedy contraction order terminates and covers all indices", "statement": "For every non-empty list of irreps and every symmetry group the contraction loop of _reduced_tensor_product_basis terminates, recursing only on strictly fewer indices, and ends with a basis over exactly all the indices.", "quantifier": "every number of indices, every group, every dims", "why_tests_cant": "data-dependent greedy choices", "anchors": ["lie_nn/_src/reduced_tensor_product.py: _reduced_tensor_product_basis"]}
{"id": "C14", "title": "normalize_integer_ratio returns the reduced fraction", "statement": "For d != 0 the result (n', d') satisfies n'*d == n*d', d' > 0 and gcd(n', d') == 1.", "quantifier": "all integers n, d with d != 0", "why_tests_cant": "infinite domain", "anchors": ["lie_nn/_src/util.py: normalize_integer_ratio"]}
{"id": "C15", "title": "limit_denominator returns a best approximation", "statement": "For a normalized fraction n/d and max_denominator m >= 1, limit_denominator terminates and returns a fraction p/q with 1 <= q <= m such that no fraction with denominator <= m is closer to n/d; when d < m the fraction itself is returned. (At d == m the code returns 0/1 instead of the fraction: recorded as a defect, C15_boundary_refuted.) Arrays are processed element by element.", "quantifier": "all normalized fractions and all bounds m >= 1", "why_tests_cant": "a for-all over competing fractions; boundary d == m is hit with probability ~0", "anchors": ["lie_nn/_src/util.py: limit_denominator"]}
{"id": "C16", "title": "limit_denominator is safe in int64", "statement": "For the magnitudes produced by as_approx_integer_ratio, evaluating limit_denominator with wrap-around 64-bit arithmetic gives the same answer as exact integers.", "quantifier": "all inputs below the stated magnitude", "why_tests_cant": "overflow needs adversarial magnitudes", "anchors": ["lie_nn/_src/util.py: limit_denominator"]}
{"id": "C17", "title": "as_approx_integer_ratio accuracy and domain", "statement": "For every finite double of magnitude at most 2**51, as_approx_integer_ratio returns a normalized ratio of the right sign close to x; above that magnitude it raises AssertionError.", "quantifier": "all doubles", "why_tests_cant": "2**64 inputs", "anchors": ["lie_nn/_src/util.py: as_approx_integer_ratio, _as_approx_integer_ratio"]}
{"id": "C18", "title": "gram_schmidt returns an orthonormal system spanning the rows", "statement": "In exact arithmetic, the rows returned by gram_schmidt are orthonormal and lie in the row span of A; with epsilon=0 they span it exactly; in general every row of A is within epsilon of the span of the result.", "quantifier": "all matrices, all epsilon >= 0", "why_tests_cant": "all matrices", "anchors": ["lie_nn/_src/util.py: gram_schmidt"]}
{"id": "C19", "title": "nullspace returns an orthonormal basis of the kernel", "statement": "In exact arithmetic with a correct Hermitian eigensolver, if every non-zero eigenvalue of A^H A is at least epsilon and n*epsilon^2 < 1 (n columns), nullspace(A) has exactly dim ker A rows, they are orthonormal, and A @ X.T == 0.", "quantifier": "all complex matrices", "why_tests_cant": "all matrices", "anchors": ["lie_nn/_src/util.py: nullspace"]}
{"id": "C20", "title": "sequential_nullspace equals the joint null space", "statement": "When sequential_nullspace returns, its rows are orthonormal, annihilated by every matrix consumed so far, and span the joint kernel of the consumed matrices; the result has at most dim_null_space rows, and no shorter prefix has so small a kernel; otherwise ValueError. (In exact arithmetic, with a correct Hermitian eigensolver, identity rounding, epsilon small and no eigenvalue of the Gram operator strictly between 0 and epsilon.)", "quantifier": "all lists of matrices", "why_tests_cant": "all histories of matrices", "anchors": ["lie_nn/_src/util.py: sequential_nullspace"]}
{"id": "C21", "title": "infer_change_of_basis finds exactly the intertwiners", "statement": "Every S returned satisfies X1[a] S = S X2[a] for all a, and every matrix with that property is a linear combination of the returned ones. For representations: Q rho1 = rho2 Q. (In exact arithmetic, with a correct Hermitian eigensolver, identity rounding, epsilon small and no eigenvalue of the Gram operator strictly between 0 and epsilon.)", "quantifier": "all pairs of generator stacks", "why_tests_cant": "completeness is a for-all over matrices", "anchors": ["lie_nn/_src/util.py: infer_change_of_basis", "lie_nn/_src/infer_change_of_basis.py: infer_change_of_basis"]}
{"id": "C22", "title": "clebsch_gordan of generic representations is equivariant", "statement": "For all representations rep1, rep2, rep3 of one algebra, every array slice C[z] returned satisfies sum_k C[z,i,j,k] X3[d,l,k] = sum X1[d,i',i] C[z,i',j,l] + X2[d,j',j] C[z,i,j',l] - the identity check_representation_triplet tests - and the slices span all such arrays. (In exact arithmetic, with a correct Hermitian eigensolver, identity rounding, epsilon small and no eigenvalue of the Gram operator strictly between 0 and epsilon.)", "quantifier": "all triples of representations", "why_tests_cant": "all representations", "anchors": ["lie_nn/_src/clebsch_gordan.py: clebsch_gordan", "lie_nn/_src/rep.py: check_representation_triplet"]}
{"id": "C23", "title": "direct_sum is a representation", "statement": "For representations of the same algebra, direct_sum returns block-diagonal generators satisfying the same commutation relations, of dimension dim1+dim2; it raises AssertionError when structure constants differ beyond the tolerance or discrete generator counts differ, and ValueError (from broadcasting) when the Lie algebra dimensions are incompatible.", "quantifier": "all pairs of representations", "why_tests_cant": "all representations and dimensions", "anchors": ["lie_nn/_src/direct_sum.py: direct_sum", "lie_nn/_src/util.py: direct_sum"]}
{"id": "C24", "title": "tensor_product of generic representations", "statement": "tensor_product returns X = X1 (x) 1 + 1 (x) X2 and H = H1 (x) H2 in row-major Kronecker layout, dimension dim1*dim2, satisfying the same commutation relations.", "quantifier": "all pairs of representations", "why_tests_cant": "all representations", "anchors": ["lie_nn/_src/tensor_product.py: tensor_product(Rep, Rep)"]}
{"id": "C25", "title": "tensor_power is the n-fold tensor product", "statement": "For every generic representation and n >= 0, tensor_power terminates and returns the n-fold Kronecker sum/product (trivial for n = 0), of dimension dim**n.", "quantifier": "all representations, all n", "why_tests_cant": "unbounded n; termination", "anchors": ["lie_nn/_src/tensor_product.py: tensor_power", "lie_nn/_src/rep.py: GenericRep.create_trivial"]}
{"id": "C26", "title": "group_product is a representation of the product group", "statement": "group_product(rep1, rep2) satisfies the commutation relations of the block-diagonal algebra; generators of the two factors commute; dim and lie_dim multiply/add; TabulatedIrrepProduct gives the same arrays.", "quantifier": "all pairs of representations", "why_tests_cant": "all representations", "anchors": ["lie_nn/_src/group_product.py: group_product, TabulatedIrrepProduct"]}
{"id": "C27", "title": "change_basis conjugates the representation", "statement": "If Q has a left inverse iQ, change_basis gives X' = Q X iQ, satisfies the same relations, Q intertwines old and new; composing two changes equals the change by the product. The ReducedRep/MulIrrep/TabulatedIrrep overloads give the same generators as the generic one.", "quantifier": "all representations, all invertible Q", "why_tests_cant": "all representations and matrices", "anchors": ["lie_nn/_src/change_basis.py: change_basis"]}
{"id": "C28", "title": "change_algebra transforms structure constants covariantly", "statement": "For invertible Q, change_algebra's A' and X' satisfy [X'_i, X'_j] = A'_ijk X'_k whenever X satisfies A; changing by Q then by Q^-1 restores the representation.", "quantifier": "all representations, all invertible Q", "why_tests_cant": "all representations and matrices", "anchors": ["lie_nn/_src/change_algebra.py: change_algebra"]}
{"id": "C29", "title": "conjugate is a representation of the same algebra", "statement": "conjugate(rep) satisfies the commutation relations of rep.A when the structure constants are real; conjugating twice gives rep back. (For complex structure constants the claim is false, since A is not conjugated: C29_complex_algebra_refuted.)", "quantifier": "all representations", "why_tests_cant": "all representations, including complex structure constants", "anchors": ["lie_nn/_src/conjugate.py: conjugate"]}
{"id": "C30", "title": "create_trivial is trivial and neutral", "statement": "GenericRep.create_trivial is a 1-dimensional representation for which is_trivial holds and tensoring with it changes nothing.", "quantifier": "all representations", "why_tests_cant": "all representations", "anchors": ["lie_nn/_src/rep.py: GenericRep.create_trivial, Rep.is_trivial"]}
{"id": "C31", "title": "MulIrrep and ReducedRep are representations of the stated dimension", "statement": "The generators of m copies / of Q (+ m_i rho_i) Q^-1 are block diagonal (conjugated by Q), satisfy the relations of the common algebra, and have the dimension reported by .dim.", "quantifier": "all multiplicities, all lists of irreps, all invertible Q", "why_tests_cant": "all lists and multiplicities, including 0 and empty", "anchors": ["lie_nn/_src/reduced_rep.py: MulIrrep, ReducedRep"]}
{"id": "C32", "title": "Specialised tensor_product overloads agree with the generic one", "statement": "For MulIrrep/ReducedRep/TabulatedIrrep arguments the returned ReducedRep has the same generators as the generic Kronecker tensor product of the same arguments (with a ReducedRep: up to the code's rounding of the change of basis, exactly when the rounding changes nothing). The two overloads whose left argument is a ReducedRep and right argument is not give the product in the swapped order.", "quantifier": "all arguments of every overload", "why_tests_cant": "all reps; overload resolution", "anchors": ["lie_nn/_src/tensor_product.py: tensor_product overloads"]}
{"id": "C33", "title": "check_algebra_vs_generators and infer_algebra_from_generators", "statement": "The check accepts iff all commutators match A within tolerance; if generators are linearly independent and closed under commutator, the algebra inferred (with exact pinv) is the unique one, is antisymmetric and satisfies Jacobi; otherwise None.", "quantifier": "all generator stacks", "why_tests_cant": "all generator stacks", "anchors": ["lie_nn/_src/util.py: check_algebra_vs_generators, infer_algebra_from_generators"]}
{"id": "C34", "title": "exp_map orders the discrete generators left of the exponential", "statement": "exp_map returns h_0^k_0 h_1^k_1 ... h_r^k_r expm(sum a_i X_i), and for a tensor product / direct sum the discrete part is the Kronecker / block product of the parts.", "quantifier": "all representations and parameters", "why_tests_cant": "all parameters", "anchors": ["lie_nn/_src/rep.py: Rep.exp_map"]}
{"id": "C35", "title": "jax matrix_power computes F^n", "statement": "For every square matrix F and 0 <= n < 2**32, matrix_power(F, n) = F^n regardless of the contents of jnp.empty.", "quantifier": "all matrices, all n below 2**32", "why_tests_cant": "uninitialised values and all n", "anchors": ["lie_nn/_src/jax_utils.py: matrix_power"]}
{"id": "C36", "title": "SU2 generators satisfy the su(2) algebra and are anti-Hermitian", "statement": "For every j >= 0: [X_a, X_b] = A_abc X_c with the tabulated A; X_a^H = -X_a; dim = j+1.", "quantifier": "every spin j", "why_tests_cant": "infinitely many spins; tests use j < 7", "anchors": ["lie_nn/_src/irreps/su2.py: SU2.continuous_generators, SU2.algebra"]}
{"id": "C37", "title": "SO3/O3/SU2Real real-basis generators", "statement": "For every l the change of basis is unitary, the transformed generators are real, antisymmetric and satisfy the algebra; the asserts on imaginary parts never fire.", "quantifier": "every l", "why_tests_cant": "infinitely many l", "anchors": ["lie_nn/_src/irreps/so3_real.py", "lie_nn/_src/irreps/o3_real.py", "lie_nn/_src/irreps/su2_real.py"]}
{"id": "C38", "title": "SL2C generators satisfy the sl(2,C) algebra", "statement": "For every (l,k) the six generators satisfy the tabulated 6x6x6 structure constants; dim = (l+1)(k+1).", "quantifier": "every (l,k)", "why_tests_cant": "infinitely many irreps", "anchors": ["lie_nn/_src/irreps/sl2c.py"]}
{"id": "C39", "title": "SO13 generators and four_vector satisfy the so(1,3) algebra", "statement": "For every (l,k) with l+k even the generators satisfy the tabulated structure constants; so does four_vector, which preserves the Minkowski form.", "quantifier": "every (l,k)", "why_tests_cant": "infinitely many irreps", "anchors": ["lie_nn/_src/irreps/so13.py"]}
{"id": "C40", "title": "SU2 Clebsch-Gordan coefficients are equivariant", "statement": "For all j1, j2, j3 the array SU2.clebsch_gordan(j1,j2,j3) satisfies the equivariance identity for the three su(2) generators.", "quantifier": "all triples of spins", "why_tests_cant": "infinitely many triples; tests use j < 4", "anchors": ["lie_nn/_src/irreps/su2.py: clebsch_gordanSU2mat, clebsch_gordanSU2coeffs"]}
{"id": "C41", "title": "SU2 Clebsch-Gordan matrices are orthonormal", "statement": "The concatenated Clebsch-Gordan matrix of j1 x j2 over all j3 is orthogonal.", "quantifier": "all pairs of spins", "why_tests_cant": "infinitely many", "anchors": ["lie_nn/_src/irreps/su2.py: clebsch_gordanSU2coeffs"]}
{"id": "C42", "title": "Selection rules of SU2/SO3/O3/SL2C/SO13/Z2 balance dimensions", "statement": "The irreps listed by ir1 * ir2 are pairwise distinct, valid labels, symmetric in ir1 and ir2, and their dimensions add up to dim(ir1)*dim(ir2).", "quantifier": "all pairs of labels", "why_tests_cant": "infinitely many labels", "anchors": ["lie_nn/_src/irreps/*.py: __mul__, dim"]}
{"id": "C43", "title": "The selection rule agrees with the Clebsch-Gordan array shape", "statement": "clebsch_gordan(ir1,ir2,ir3) has first dimension 1 when ir3 is in ir1*ir2 and 0 otherwise (SU2, SO3, O3, SL2C, Z2).", "quantifier": "all label triples", "why_tests_cant": "infinitely many", "anchors": ["lie_nn/_src/irreps/*.py: clebsch_gordan"]}
{"id": "C44", "title": "iterator() enumerates every label once, in increasing order, trivial first", "statement": "For every tabulated class, iterator() yields each valid label exactly once, is strictly increasing for __lt__, and starts with the trivial irrep.", "quantifier": "every class, every prefix of the infinite iterator", "why_tests_cant": "infinite iterators", "anchors": ["lie_nn/_src/irrep.py: TabulatedIrrep", "lie_nn/_src/irreps/*.py: iterator, __lt__"]}
{"id": "C45", "title": "__lt__ is a strict total order", "statement": "__lt__ on the labels of each class is irreflexive, transitive and total, compatible with equality.", "quantifier": "all labels", "why_tests_cant": "infinitely many", "anchors": ["lie_nn/_src/irreps/*.py: __lt__", "lie_nn/_src/group_product.py: __lt__"]}
{"id": "C46", "title": "SU(N) dim is a positive integer counting Gelfand-Tsetlin patterns", "statement": "For every non-increasing S the Weyl product in dim(S) is a positive integer (its assert never fires) equal to the number of patterns produced by S_to_Ms(S).", "quantifier": "every N and every weight S", "why_tests_cant": "infinitely many weights", "anchors": ["lie_nn/_src/irreps/sun.py: dim, S_to_Ms, S_to_Ss"]}
{"id": "C47", "title": "S_to_Ms enumerates exactly the Gelfand-Tsetlin patterns", "statement": "S_to_Ms(S) yields, without repetition and in lexicographic order, exactly the triangular patterns with top row S whose rows interlace.", "quantifier": "every S", "why_tests_cant": "infinitely many", "anchors": ["lie_nn/_src/irreps/sun.py: S_to_Ms, S_to_Ss, is_valid_M"]}
{"id": "C48", "title": "index_to_M and M_to_index invert each other", "statement": "index_to_M(S, i) is the i-th pattern of S_to_Ms(S) for 0 <= i < dim(S); M_to_index(index_to_M(S,i)) == i and index_to_M(S, M_to_index(M)) == M.", "quantifier": "every S, index and pattern", "why_tests_cant": "infinitely many", "anchors": ["lie_nn/_src/irreps/sun.py: index_to_M, M_to_index"]}
{"id": "C49", "title": "Ladder coefficients never fail and the ladder matrices are transposes", "statement": "For valid patterns the denominators are non-zero and -num/den >= 0, so compute_coeff_upper/lower never raise; lower_ladder_matrices is the transpose of upper_ladder_matrices.", "quantifier": "every S, level and pattern", "why_tests_cant": "infinitely many", "anchors": ["lie_nn/_src/irreps/sun.py: compute_coeff_upper, compute_coeff_lower, upper_ladder, lower_ladder, M_add_at_lk"]}
{"id": "C50", "title": "SU(N) ladder commutators", "statement": "[Jz_l, J+_l] = J+_l, [Jz_l, J-_l] = -J-_l and [J+_l, J-_l] = 2 Jz_l for every level l of every S.", "quantifier": "every S and level", "why_tests_cant": "infinitely many", "anchors": ["lie_nn/_src/irreps/sun.py: upper_ladder_matrices, lower_ladder_matrices, Jz_matrices"]}
{"id": "C51", "title": "mul_rep yields valid weights with balanced dimensions", "statement": "Every weight in mul_rep(S1,S2) is non-increasing with last entry 0 and length N, S1+S2 occurs, and the dimensions (with multiplicity) add up to dim(S1)*dim(S2). Moreover the characters add up to the product of the characters, and SUN.__mul__ lists the distinct weights in increasing order.", "quantifier": "every N, S1, S2", "why_tests_cant": "infinitely many", "anchors": ["lie_nn/_src/irreps/sun.py: mul_rep, unique_pairs"]}
{"id": "C52", "title": "SU(N) Clebsch-Gordan arrays are equivariant for every multiplicity index", "statement": "clebsch_gordan_eldest gives an orthonormal basis of the highest weight vectors; for S3 without weight multiplicities the slice 0 of clebsch_gordan_matrix is an isometric equivariant map. (The other slices, for S3 occurring several times in S1 x S2, are not equivariant, nor is slice 0 for S3 = (2,1,0): recorded as defects, C52_multiplicity_refuted and C52_adjoint_refuted.)", "quantifier": "all S1,S2,S3", "why_tests_cant": "multiplicity >= 2 first occurs at 8x8 of SU(3)", "anchors": ["lie_nn/_src/irreps/sun.py: clebsch_gordan_matrix, construct_lower_cg, search_state"]}
{"id": "C53", "title": "Symmetric-group representations", "statement": "For every n the generators of Sn_natural/Sn_standard/Sn_trivial represent the transposition (0 1) and the n-cycle: they satisfy H_tr^2 = 1, H_cy^n = 1, (H_tr H_cy)^(n-1) = 1 and Sn_standard is the subrepresentation of Sn_natural on e_i - e_0.", "quantifier": "every n", "why_tests_cant": "all n", "anchors": ["lie_nn/_src/finite.py"]}
{"id": "C54", "title": "regular_representation is the left regular representation", "statement": "For every group multiplication table, D(g)D(h) = D(gh), D(e) = 1, each D(g) is a permutation matrix and D is faithful.", "quantifier": "every finite group table", "why_tests_cant": "all finite groups", "anchors": ["lie_nn/_src/util.py: regular_representation"]}
{"id": "C55", "title": "unique_with_tol clusters stably or raises", "statement": "On success labels are consecutive in order of first occurrence, every element is within tol of the first element of its cluster and of no other cluster's first element, centers are the cluster means; otherwise ValueError. It terminates for tol > 0.", "quantifier": "all arrays and tolerances", "why_tests_cant": "all arrays; termination", "anchors": ["lie_nn/_src/util.py: unique_with_tol, eigenspaces"]}
{"id": "C56", "title": "Root systems, Cartan matrices and Weyl dimension data", "statement": "For every rank that is accepted, the simple roots of types A-D give the standard Cartan matrix, the positive roots are exactly those of the standard realisation and natural combinations of the simple roots, the Weyl vector, the Coxeter number and the maximal root are the standard ones, and the fundamental weights are dual to the simple coroots (rank many of them). The last claim is false of D_n for n > 2, where the list of fundamental weights is too long and its n-th entry is wrong.", "quantifier": "every type and rank", "why_tests_cant": "all ranks", "anchors": ["lie_nn/_src/lie_algebra_utils.py"]}
{"id": "C57", "title": "SON_adjoint generators lie in so(n)", "statement": "For every even n >= 4 the matrices of SON_adjoint preserve the standard (Fulton-Harris) symmetric form and span so(n), with repetitions. For n = 3 the code raises ValueError, and for every odd n >= 5 exactly n - 1 of the matrices do not preserve the form.", "quantifier": "every n", "why_tests_cant": "all n", "anchors": ["lie_nn/_src/irreps/son.py: SON_adjoint"]}
{"id": "C58", "title": "from_string parses what it documents", "statement": "Printing a label canonically and parsing it with from_string gives it back, for SU2, SO3, O3, Z2, SL2C, SO13, SUN, MulIrrep ('mxir') and ReducedRep (terms joined by '+').", "quantifier": "all labels, multiplicities and lists", "why_tests_cant": "all strings", "anchors": ["lie_nn/_src/irreps/*.py: from_string", "lie_nn/_src/reduced_rep.py: MulIrrep.from_string, ReducedRep.from_string"]}
{"id": "C59", "title": "is_irreducible is Schur's criterion", "statement": "is_irreducible returns True iff the matrices commuting with all generators are exactly the scalar multiples of one matrix (commutant of dimension 1); for unitary representations this is irreducibility, in general it is only implied by it. (In exact arithmetic, with a correct Hermitian eigensolver, identity rounding, epsilon small and no eigenvalue of the Gram operator strictly between 0 and epsilon.)", "quantifier": "all representations", "why_tests_cant": "all representations", "anchors": ["lie_nn/_src/util.py: is_irreducible", "lie_nn/_src/is_irreducible.py"]}
{"id": "C60", "title": "is_unitary and is_real characterisations", "statement": "In exact arithmetic is_unitary holds iff every H is unitary and every X anti-Hermitian (up to the tolerance); it is preserved by direct_sum, tensor_product and unitary change_basis; is_real holds iff a non-zero intertwiner to the conjugate exists (same conditions as C21).", "quantifier": "all representations", "why_tests_cant": "all representations", "anchors": ["lie_nn/_src/properties.py: is_unitary", "lie_nn/_src/real.py: is_real"]}
{"id": "C61", "title": "reduce of a generic representation gives an equivalent ReducedRep", "statement": "In exact arithmetic, for a real representation, reduce(rep) either raises ValueError or returns a ReducedRep with the same generators as rep and irreducible, pairwise inequivalent summands; for suitable weights it succeeds when no irrep occurs twice. (It does not work when an irrep occurs more than once, nor for complex generators: recorded as defects, C61_multiplicity_refuted and C61_complex_refuted.)", "quantifier": "all completely reducible representations", "why_tests_cant": "all representations", "anchors": ["lie_nn/_src/reduce.py: reduce", "lie_nn/_src/util.py: decompose_rep_into_irreps"]}
{"id": "C62", "title": "basis_intersection spans the intersection", "statement": "P1 @ basis1 spans span(basis1) intersected with span(basis2) (and likewise P2), for real bases in exact arithmetic.", "quantifier": "all pairs of real bases", "why_tests_cant": "all matrices", "anchors": ["lie_nn/_src/util.py: basis_intersection"]}
{"id": "C63", "title": "vmap maps the function along the requested axes", "statement": "vmap(fun, in_axes, out_axes) returns the stack along out_axes of fun applied to the slices, or an empty array of out_shape when the axis has length 0; it raises AssertionError on inconsistent axis lengths.", "quantifier": "all functions, axes and shapes", "why_tests_cant": "all functions and shapes", "anchors": ["lie_nn/_src/util.py: vmap"]}
{"id": "C64", "title": "round_to_sqrt_rational fixes square roots of rationals", "statement": "If x is within rounding error of sign*sqrt(p/q) with q <= max_denominator**2 and p small enough (for the default bound: p <= q < 2**22), rounding recovers exactly sign, p and q; so exact Clebsch-Gordan coefficients survive the rounding.", "quantifier": "all p/q, signs and rounding errors within the bound", "why_tests_cant": "a for-all over rationals and rounding errors", "anchors": ["lie_nn/_src/util.py: round_to_sqrt_rational, limit_denominator, as_approx_integer_ratio"]}
{"id": "C65", "title": "SO3, O3, Z2 and SL2C Clebsch-Gordan coefficients are equivariant, orthonormal and complete", "statement": "For all labels allowed by the selection rule, clebsch_gordan of SO3, O3, Z2 and SL2C intertwines the continuous and the discrete generators, is real for SO3 and O3 (so the check of the imaginary part never fails), has orthonormal columns, and the arrays of all labels in ir1*ir2 together form a unitary change of basis of the tensor product.", "quantifier": "all label triples", "why_tests_cant": "infinitely many irreps; tests use small ones", "anchors": ["lie_nn/_src/irreps/so3_real.py", "lie_nn/_src/irreps/o3_real.py", "lie_nn/_src/irreps/z2.py", "lie_nn/_src/irreps/sl2c.py: clebsch_gordansl2mat"]}
{"id": "C66", "title": "extend_basis completes an orthonormal basis", "statement": "For n*epsilon^2 < 1 (n columns), extend_basis(A) returns a unitary n x n matrix whose first rows are gram_schmidt(A); with returns='E' it returns the remaining rows, and raises ValueError when A already has full rank.", "quantifier": "all matrices, all small epsilon", "why_tests_cant": "all matrices", "anchors": ["lie_nn/_src/util.py: extend_basis"]}
{"id": "C67", "title": "The reduced tensor product basis is equivariant", "statement": "When the Clebsch-Gordan arrays intertwine a generator, the array returned by reduced_tensor_product_basis intertwines its action on the last axis (block-diagonal over the returned irreps) with its action on the other axes (the sum over the axes for a continuous generator, all axes in turn for a discrete one), for every list of representations with or without a change of basis Q, and every permutation symmetry.", "quantifier": "every number of indices, every group, every list of reduced representations", "why_tests_cant": "data-dependent contraction order; all representations", "anchors": ["lie_nn/_src/reduced_tensor_product.py: _reduced_tensor_product_basis, reduce_basis_product, constrain_rotation_basis_by_permutation_basis"]}
{"id": "C68", "title": "Dimensions of the SO(n) and Sp(2n) representations", "statement": "SON.dim and SPN.dim are 1 on the zero label and positive on every label with non-negative entries, and (1, 0, ..., 0) has the dimension of the vector representation; labels with fewer than two entries raise. The last label of SO(2n) gives the vector representation instead of a half-spin one for even n > 4.", "quantifier": "every label and rank", "why_tests_cant": "all ranks", "anchors": ["lie_nn/_src/irreps/son.py: root_weights, weights, dim, is_scalar", "lie_nn/_src/irreps/spn.py: root_weights, weights, dim, is_scalar", "lie_nn/_src/lie_algebra_utils.py: weyl_dim"]}
{"id": "C69", "title": "The SU(N) representations are irreducible", "statement": "For every dominant S (last entry >= 0) the only matrices commuting with all ladder matrices of S are the scalars, and the last basis pattern is, up to a factor, the only vector killed by all raising operators.", "quantifier": "every N and every weight S", "why_tests_cant": "infinitely many weights; properties.py tests use a few", "anchors": ["lie_nn/_src/irreps/sun.py: upper_ladder_matrices, lower_ladder_matrices, S_to_Ms"]}
{"id": "C70", "title": "SUN gives representations of su(N) with one set of structure constants", "statement": "For every N >= 2 there are structure constants of the standard basis of su(N) such that, for every dominant S of length N with last entry >= 0, the generators returned for S satisfy them and the algebra array of SUN (computed with a pseudo-inverse from the fundamental representation) holds them. The generators are the images of that basis under a linear map that respects commutators, antihermitian, linearly independent unless all entries of S are equal, and only scalars commute with all of them.", "quantifier": "every N and every weight S", "why_tests_cant": "infinitely many groups and weights; the tests check a few small ones in floating point", "anchors": ["lie_nn/_src/irreps/sun.py: generators, algebra, E_basis, SUN"]}
{"id": "C71", "title": "The reduced tensor product basis has the requested permutation symmetry", "statement": "When the representations are real and the irreps irreducible, every array returned by _reduced_tensor_product_basis satisfies a[x_1,...,x_n,c] = s a[x_p(1),...,x_p(n),c] for every signed permutation (s, p) of the group that it was given, in all components c, although the code constrains the component 0 of each irrep only. The result does not depend on the tolerance when this is small.", "quantifier": "every number of indices, every group of signed permutations, every list of real reduced representations", "why_tests_cant": "the code checks one component; all representations and groups", "anchors": ["lie_nn/_src/reduced_tensor_product.py: _reduced_tensor_product_basis, constrain_rotation_basis_by_permutation_basis, reduce_subgroup_permutation"]}
{"id": "C72", "title": "The reduced tensor product basis spans exactly the tensors with the requested symmetry", "statement": "Every tensor T with T[x_1,...,x_n] = s T[x_p(1),...,x_p(n)] for all the signed permutations (s, p) of the group is a linear combination of the slices a[..., c] of the array returned by _reduced_tensor_product_basis, and only those tensors are: the greedy pairwise merging, the recursion on sub-groups, the constraint on the component 0 of each irrep and the discarding of rows that do not meet a block lose nothing.", "quantifier": "every number of indices, every group of signed permutations, every list of real reduced representations of SU2, O3 and Z2, every symmetric tensor", "why_tests_cant": "a lost direction leaves all the checks of the code valid; all representations, groups and tensors", "anchors": ["lie_nn/_src/reduced_tensor_product.py: _reduced_tensor_product_basis, constrain_rotation_basis_by_permutation_basis, reduced_symmetric_tensor_product_basis"]}
{"id": "C73", "title": "The slices of the reduced tensor product basis are linearly independent", "statement": "No nontrivial combination of the slices a[..., c] of the array returned by _reduced_tensor_product_basis vanishes, so with C72 they form a basis of the symmetric tensors and coefficients are unique. In particular the dimensions of the irreps of reduced_symmetric_tensor_product_basis of a representation of SU2 of dimension d+1 and order n add up to the binomial coefficient (n+d choose n).", "quantifier": "every number of indices, every group of signed permutations, every list of real reduced representations of SU2, O3 and Z2", "why_tests_cant": "a redundant column passes all the equivariance and symmetry checks; all representations and groups", "anchors": ["lie_nn/_src/reduced_tensor_product.py: _reduced_tensor_product_basis, reduce_basis_product, constrain_rotation_basis_by_permutation_basis, reduced_symmetric_tensor_product_basis"]}
{"id": "C74", "title": "A list of representations without symmetry always reduces, to an invertible change of basis", "statement": "reduced_tensor_product_basis of a nonempty list of reduced representations of positive dimension (with an invertible Q, if any) never raises. The array has the shape (d1, ..., dn, d1*...*dn), the dimensions of the irreps add up to d1*...*dn, and its slices a[..., c] are a basis of all the tensors. The result does not depend on epsilon, on the rounding or on the eigenvector routine.", "quantifier": "every number of representations of SU2, O3 and Z2, every multiplicity and invertible change of basis", "why_tests_cant": "all lists of representations; an exception or a singular result for one list is not seen by tests of others", "anchors": ["lie_nn/_src/reduced_tensor_product.py: reduced_tensor_product_basis, _reduced_tensor_product_basis, reduce_basis_product, IrrepsArray"]}
{"id": "C75", "title": "A formula is reduced to a basis of the tensors with the symmetry that it states", "statement": "reduced_tensor_product_basis(formula, **irreps): whenever it returns, every index has the representation given for it (or for an index that the symmetry relates to it), and the slices a[..., c] are linearly independent and span exactly the tensors with T[f0] = T[w] for every term w of the formula (T[f0] = -T[w] for -w). The keyword arguments are accepted exactly when they are representations of indices of the formula, related indices that are given have the same ReducedRep object, and every index is related to one that is given; the order of iteration over the group does not matter. Since ReducedRep objects are compared by identity, giving both indices of ij=ji the same irrep raises RuntimeError. ij=ji with i an irrep of SU2 returns, ij=-ji always raises.", "quantifier": "every formula, number of terms and indices, all keyword arguments, irreps of SU2, O3 and Z2, every iteration order of the group", "why_tests_cant": "all formulas and all tensors; the spanned space is infinite", "anchors": ["lie_nn/_src/reduced_tensor_product.py: reduced_tensor_product_basis, _to_reducedrep", "lie_nn/_src/reduce_permutation.py: germinate_perm_repr", "lie_nn/_src/reduced_rep.py: ReducedRep"]}
{"id": "C76", "title": "make_explicitly_real returns an equivalent representation with real matrices", "statement": "For an irreducible unitary representation that is equivalent to a real one, make_explicitly_real(rep) returns a representation Q rho Q^-1 whose continuous and discrete generators are all real. If S rho = conj(rho) S has no non-zero solution it raises ValueError, and if there are two independent ones (a reducible rep) its assert fails. Whatever it returns has real continuous generators up to 1e-10; the discrete generators are not checked, and for the quaternion group it returns matrices that are not real.", "quantifier": "every dimension, every Lie algebra and group relations, every irreducible unitary representation", "why_tests_cant": "all irreducible representations of all groups", "anchors": ["lie_nn/_src/real.py: make_explicitly_real", "lie_nn/_src/change_basis.py: change_basis", "lie_nn/_src/infer_change_of_basis.py: infer_change_of_basis"]}
