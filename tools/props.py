# Source of properties.jsonl: run `python3 tools/props.py > properties.jsonl`.
import json
P = []
def p(id, title, statement, quantifier, why, anchors):
    P.append(dict(id=id, title=title, statement=statement, quantifier=quantifier, why_tests_cant=why, anchors=anchors))

PERM = "lie_nn/_src/discrete_groups/perm.py"; RTP = "lie_nn/_src/reduced_tensor_product.py"; UT = "lie_nn/_src/util.py"
SUN = "lie_nn/_src/irreps/sun.py"; REP = "lie_nn/_src/rep.py"; RR = "lie_nn/_src/reduced_rep.py"; TP = "lie_nn/_src/tensor_product.py"

p("C01", "Permutation numbering is a bijection",
  "from_int(i, n) is a permutation of range(n) for every 0 <= i < n!; to_int(from_int(i, n)) == i; from_int(to_int(p), len(p)) == p and 0 <= to_int(p) < n! for every permutation p. Hence group(n) is exactly the set of all permutations of range(n) and has n! elements.",
  "every n, every index below n!, every permutation of every length",
  "n! grows too fast to enumerate; a test sees only a few small n", [f"{PERM}: from_int, to_int, group, rand"])
p("C02", "Permutation tuples form a group under compose/inverse/identity",
  "For permutations of the same length, compose returns a permutation, is associative, identity(n) is neutral, and inverse(p) is a two-sided inverse; compose raises AssertionError exactly when an argument is not a permutation or the lengths differ.",
  "all tuples / all permutations of all lengths", "unbounded length", [f"{PERM}: is_perm, identity, compose, inverse"])
p("C03", "germinate returns the generated subgroup",
  "For every set of permutations of one common length, germinate terminates and returns exactly the smallest set that contains the input and is closed under inverse and compose (for a non-empty input: the generated subgroup).",
  "every finite set of permutations of every length", "termination and minimality quantify over all generating sets", [f"{PERM}: germinate"])
p("C04", "is_group decides being a subgroup",
  "For every set of permutations of a common length, is_group returns True iff the set is non-empty, contains the identity and is closed under inverse and compose.",
  "every finite set of permutations", "all subsets of all symmetric groups", [f"{PERM}: is_group"])
p("C05", "The two sign functions agree and are homomorphisms",
  "permutation_sign (inversion parity, util) and perm.sign (cycle parity) return the same value in {1,-1} on every permutation; sign(compose(p,q)) == sign(p)*sign(q); a transposition has sign -1.",
  "all permutations of all lengths", "n! inputs per length, all lengths", [f"{UT}: permutation_sign", f"{PERM}: sign, to_cycles"])
p("C06", "to_cycles returns the cycle decomposition",
  "For every permutation, to_cycles terminates and returns pairwise disjoint cycles of length >= 2, each starting at its minimum and following p, covering exactly the non-fixed points.",
  "all permutations of all lengths", "unbounded length; loop termination", [f"{PERM}: to_cycles"])
p("C07", "Index-symmetry formulas generate the full signed group",
  "For every well-formed formula (f0=[-]f1=[-]f2...), germinate_perm_repr terminates and returns exactly the smallest set of signed permutations containing the given ones and closed under inverse and product (signs multiply). Malformed formulas raise RuntimeError.",
  "every formula, any number of indices and generators", "closure over arbitrary generator sets", [f"{RTP}: germinate_perm_repr"])
p("C08", "Permutation-symmetric tensor basis is orthonormal and complete",
  "For a signed permutation group G and dims constant on G-orbits, the rows of reduce_permutation_matrix(reduce_permutation_base(G, dims), dims) are orthonormal, each row satisfies the symmetry T[x] = s T[x.p] for all (s,p) in G, and every tensor with that symmetry is a linear combination of the rows.",
  "every signed permutation group, every tuple of dimensions, every tensor", "all groups, dims and tensors; completeness is a for-all over tensors", [f"{RTP}: reduce_permutation_base, reduce_permutation_matrix, full_base_fn"])
p("C09", "return_dim agrees with the basis that is built",
  "reduce_subgroup_permutation(..., return_dim=True) equals the number of rows of the basis returned with return_dim=False.",
  "every index subset, group and dims", "all groups and dims", [f"{RTP}: reduce_subgroup_permutation"])
p("C10", "subrepr_permutation is the pointwise stabiliser restricted to the subset",
  "For a signed group, subrepr_permutation(f, G) is exactly the set of (s, q) where some (s, p) in G fixes every index outside f and q is p restricted to sorted(f) renumbered 0..|f|-1; it is again a signed group of permutations of |f| points.",
  "every group and index subset", "all groups and subsets", [f"{RTP}: subrepr_permutation"])
p("C11", "Irreps assignment reaches the whole orbit of an index",
  "When a formula is used, an irrep given for one index is propagated to every index in its orbit, whatever order the set of permutations is iterated in; an index without any given representative, a foreign key, or two related indices given by different objects raise RuntimeError. (The intended 'equal irreps for two related indices are accepted' is false: ReducedRep compares by identity.)",
  "every formula, every assignment, every set iteration order", "iteration order of a Python set is a schedule a test cannot control", [f"{RTP}: reduced_tensor_product_basis"])
p("C12", "sorted()/simplify() of IrrepsArray only permute and merge blocks",
  "sorted() orders the (irrep, mul) blocks without losing or duplicating any; simplify() merges adjacent equal irreps; total dimension and the multiset of (irrep, column) pairs are unchanged; after sorted().simplify() no irrep label appears twice.",
  "every list of blocks", "all block lists and orders", [f"{RTP}: IrrepsArray.sorted, IrrepsArray.simplify"])
p("C13", "The greedy contraction order terminates and covers all indices",
  "For every non-empty list of irreps and every symmetry group the contraction loop of _reduced_tensor_product_basis terminates, recursing only on strictly fewer indices, and ends with a basis over exactly all the indices.",
  "every number of indices, every group, every dims", "data-dependent greedy choices", [f"{RTP}: _reduced_tensor_product_basis"])
p("C14", "normalize_integer_ratio returns the reduced fraction",
  "For d != 0 the result (n', d') satisfies n'*d == n*d', d' > 0 and gcd(n', d') == 1.",
  "all integers n, d with d != 0", "infinite domain", [f"{UT}: normalize_integer_ratio"])
p("C15", "limit_denominator returns a best approximation",
  "For a normalized fraction n/d and max_denominator m >= 1, limit_denominator terminates and returns a fraction p/q with 1 <= q <= m such that no fraction with denominator <= m is closer to n/d; when d < m the fraction itself is returned. (At d == m the code returns 0/1 instead of the fraction: recorded as a defect, C15_boundary_refuted.) Arrays are processed element by element.",
  "all normalized fractions and all bounds m >= 1", "a for-all over competing fractions; boundary d == m is hit with probability ~0", [f"{UT}: limit_denominator"])
p("C16", "limit_denominator is safe in int64",
  "For the magnitudes produced by as_approx_integer_ratio, evaluating limit_denominator with wrap-around 64-bit arithmetic gives the same answer as exact integers.",
  "all inputs below the stated magnitude", "overflow needs adversarial magnitudes", [f"{UT}: limit_denominator"])
p("C17", "as_approx_integer_ratio accuracy and domain",
  "For every finite double of magnitude at most 2**51, as_approx_integer_ratio returns a normalized ratio of the right sign close to x; above that magnitude it raises AssertionError.",
  "all doubles", "2**64 inputs", [f"{UT}: as_approx_integer_ratio, _as_approx_integer_ratio"])
p("C18", "gram_schmidt returns an orthonormal system spanning the rows",
  "In exact arithmetic, the rows returned by gram_schmidt are orthonormal and lie in the row span of A; with epsilon=0 they span it exactly; in general every row of A is within epsilon of the span of the result.",
  "all matrices, all epsilon >= 0", "all matrices", [f"{UT}: gram_schmidt"])
p("C19", "nullspace returns an orthonormal basis of the kernel",
  "In exact arithmetic with a correct Hermitian eigensolver, if every non-zero eigenvalue of A^H A is at least epsilon and n*epsilon^2 < 1 (n columns), nullspace(A) has exactly dim ker A rows, they are orthonormal, and A @ X.T == 0.",
  "all complex matrices", "all matrices", [f"{UT}: nullspace"])
p("C20", "sequential_nullspace equals the joint null space",
  "When sequential_nullspace returns, its rows are orthonormal, annihilated by every matrix consumed so far, and span the joint kernel of the consumed matrices; the result has at most dim_null_space rows, and no shorter prefix has so small a kernel; otherwise ValueError. (In exact arithmetic, with a correct Hermitian eigensolver, identity rounding, epsilon small and no eigenvalue of the Gram operator strictly between 0 and epsilon.)",
  "all lists of matrices", "all histories of matrices", [f"{UT}: sequential_nullspace"])
p("C21", "infer_change_of_basis finds exactly the intertwiners",
  "Every S returned satisfies X1[a] S = S X2[a] for all a, and every matrix with that property is a linear combination of the returned ones. For representations: Q rho1 = rho2 Q. (In exact arithmetic, with a correct Hermitian eigensolver, identity rounding, epsilon small and no eigenvalue of the Gram operator strictly between 0 and epsilon.)",
  "all pairs of generator stacks", "completeness is a for-all over matrices", [f"{UT}: infer_change_of_basis", "lie_nn/_src/infer_change_of_basis.py: infer_change_of_basis"])
p("C22", "clebsch_gordan of generic representations is equivariant",
  "For all representations rep1, rep2, rep3 of one algebra, every array slice C[z] returned satisfies sum_k C[z,i,j,k] X3[d,l,k] = sum X1[d,i',i] C[z,i',j,l] + X2[d,j',j] C[z,i,j',l] - the identity check_representation_triplet tests - and the slices span all such arrays. (In exact arithmetic, with a correct Hermitian eigensolver, identity rounding, epsilon small and no eigenvalue of the Gram operator strictly between 0 and epsilon.)",
  "all triples of representations", "all representations", ["lie_nn/_src/clebsch_gordan.py: clebsch_gordan", f"{REP}: check_representation_triplet"])
p("C23", "direct_sum is a representation",
  "For representations of the same algebra, direct_sum returns block-diagonal generators satisfying the same commutation relations, of dimension dim1+dim2; it raises AssertionError when structure constants differ beyond the tolerance or discrete generator counts differ, and ValueError (from broadcasting) when the Lie algebra dimensions are incompatible.",
  "all pairs of representations", "all representations and dimensions", ["lie_nn/_src/direct_sum.py: direct_sum", f"{UT}: direct_sum"])
p("C24", "tensor_product of generic representations",
  "tensor_product returns X = X1 (x) 1 + 1 (x) X2 and H = H1 (x) H2 in row-major Kronecker layout, dimension dim1*dim2, satisfying the same commutation relations.",
  "all pairs of representations", "all representations", [f"{TP}: tensor_product(Rep, Rep)"])
p("C25", "tensor_power is the n-fold tensor product",
  "For every generic representation and n >= 0, tensor_power terminates and returns the n-fold Kronecker sum/product (trivial for n = 0), of dimension dim**n.",
  "all representations, all n", "unbounded n; termination", [f"{TP}: tensor_power", f"{REP}: GenericRep.create_trivial"])
p("C26", "group_product is a representation of the product group",
  "group_product(rep1, rep2) satisfies the commutation relations of the block-diagonal algebra; generators of the two factors commute; dim and lie_dim multiply/add; TabulatedIrrepProduct gives the same arrays.",
  "all pairs of representations", "all representations", ["lie_nn/_src/group_product.py: group_product, TabulatedIrrepProduct"])
p("C27", "change_basis conjugates the representation",
  "If Q has a left inverse iQ, change_basis gives X' = Q X iQ, satisfies the same relations, Q intertwines old and new; composing two changes equals the change by the product. The ReducedRep/MulIrrep/TabulatedIrrep overloads give the same generators as the generic one.",
  "all representations, all invertible Q", "all representations and matrices", ["lie_nn/_src/change_basis.py: change_basis"])
p("C28", "change_algebra transforms structure constants covariantly",
  "For invertible Q, change_algebra's A' and X' satisfy [X'_i, X'_j] = A'_ijk X'_k whenever X satisfies A; changing by Q then by Q^-1 restores the representation.",
  "all representations, all invertible Q", "all representations and matrices", ["lie_nn/_src/change_algebra.py: change_algebra"])
p("C29", "conjugate is a representation of the same algebra",
  "conjugate(rep) satisfies the commutation relations of rep.A when the structure constants are real; conjugating twice gives rep back. (For complex structure constants the claim is false, since A is not conjugated: C29_complex_algebra_refuted.)",
  "all representations", "all representations, including complex structure constants", ["lie_nn/_src/conjugate.py: conjugate"])
p("C30", "create_trivial is trivial and neutral",
  "GenericRep.create_trivial is a 1-dimensional representation for which is_trivial holds and tensoring with it changes nothing.",
  "all representations", "all representations", [f"{REP}: GenericRep.create_trivial, Rep.is_trivial"])
p("C31", "MulIrrep and ReducedRep are representations of the stated dimension",
  "The generators of m copies / of Q (+ m_i rho_i) Q^-1 are block diagonal (conjugated by Q), satisfy the relations of the common algebra, and have the dimension reported by .dim.",
  "all multiplicities, all lists of irreps, all invertible Q", "all lists and multiplicities, including 0 and empty", [f"{RR}: MulIrrep, ReducedRep"])
p("C32", "Specialised tensor_product overloads agree with the generic one",
  "For MulIrrep/ReducedRep/TabulatedIrrep arguments the returned ReducedRep has the same generators as the generic Kronecker tensor product of the same arguments (with a ReducedRep: up to the code's rounding of the change of basis, exactly when the rounding changes nothing). The two overloads whose left argument is a ReducedRep and right argument is not give the product in the swapped order.",
  "all arguments of every overload", "all reps; overload resolution", [f"{TP}: tensor_product overloads"])
p("C33", "check_algebra_vs_generators and infer_algebra_from_generators",
  "The check accepts iff all commutators match A within tolerance; if generators are linearly independent and closed under commutator, the algebra inferred (with exact pinv) is the unique one, is antisymmetric and satisfies Jacobi; otherwise None.",
  "all generator stacks", "all generator stacks", [f"{UT}: check_algebra_vs_generators, infer_algebra_from_generators"])
p("C34", "exp_map orders the discrete generators left of the exponential",
  "exp_map returns h_0^k_0 h_1^k_1 ... h_r^k_r expm(sum a_i X_i), and for a tensor product / direct sum the discrete part is the Kronecker / block product of the parts.",
  "all representations and parameters", "all parameters", [f"{REP}: Rep.exp_map"])
p("C35", "jax matrix_power computes F^n",
  "For every square matrix F and 0 <= n < 2**32, matrix_power(F, n) = F^n regardless of the contents of jnp.empty.",
  "all matrices, all n below 2**32", "uninitialised values and all n", ["lie_nn/_src/jax_utils.py: matrix_power"])
p("C36", "SU2 generators satisfy the su(2) algebra and are anti-Hermitian",
  "For every j >= 0: [X_a, X_b] = A_abc X_c with the tabulated A; X_a^H = -X_a; dim = j+1.",
  "every spin j", "infinitely many spins; tests use j < 7", ["lie_nn/_src/irreps/su2.py: SU2.continuous_generators, SU2.algebra"])
p("C37", "SO3/O3/SU2Real real-basis generators",
  "For every l the change of basis is unitary, the transformed generators are real, antisymmetric and satisfy the algebra; the asserts on imaginary parts never fire.",
  "every l", "infinitely many l", ["lie_nn/_src/irreps/so3_real.py", "lie_nn/_src/irreps/o3_real.py", "lie_nn/_src/irreps/su2_real.py"])
p("C38", "SL2C generators satisfy the sl(2,C) algebra",
  "For every (l,k) the six generators satisfy the tabulated 6x6x6 structure constants; dim = (l+1)(k+1).",
  "every (l,k)", "infinitely many irreps", ["lie_nn/_src/irreps/sl2c.py"])
p("C39", "SO13 generators and four_vector satisfy the so(1,3) algebra",
  "For every (l,k) with l+k even the generators satisfy the tabulated structure constants; so does four_vector, which preserves the Minkowski form.",
  "every (l,k)", "infinitely many irreps", ["lie_nn/_src/irreps/so13.py"])
p("C40", "SU2 Clebsch-Gordan coefficients are equivariant",
  "For all j1, j2, j3 the array SU2.clebsch_gordan(j1,j2,j3) satisfies the equivariance identity for the three su(2) generators.",
  "all triples of spins", "infinitely many triples; tests use j < 4", ["lie_nn/_src/irreps/su2.py: clebsch_gordanSU2mat, clebsch_gordanSU2coeffs"])
p("C41", "SU2 Clebsch-Gordan matrices are orthonormal",
  "The concatenated Clebsch-Gordan matrix of j1 x j2 over all j3 is orthogonal.",
  "all pairs of spins", "infinitely many", ["lie_nn/_src/irreps/su2.py: clebsch_gordanSU2coeffs"])
p("C42", "Selection rules of SU2/SO3/O3/SL2C/SO13/Z2 balance dimensions",
  "The irreps listed by ir1 * ir2 are pairwise distinct, valid labels, symmetric in ir1 and ir2, and their dimensions add up to dim(ir1)*dim(ir2).",
  "all pairs of labels", "infinitely many labels", ["lie_nn/_src/irreps/*.py: __mul__, dim"])
p("C43", "The selection rule agrees with the Clebsch-Gordan array shape",
  "clebsch_gordan(ir1,ir2,ir3) has first dimension 1 when ir3 is in ir1*ir2 and 0 otherwise (SU2, SO3, O3, SL2C, Z2).",
  "all label triples", "infinitely many", ["lie_nn/_src/irreps/*.py: clebsch_gordan"])
p("C44", "iterator() enumerates every label once, in increasing order, trivial first",
  "For every tabulated class, iterator() yields each valid label exactly once, is strictly increasing for __lt__, and starts with the trivial irrep.",
  "every class, every prefix of the infinite iterator", "infinite iterators", ["lie_nn/_src/irrep.py: TabulatedIrrep", "lie_nn/_src/irreps/*.py: iterator, __lt__"])
p("C45", "__lt__ is a strict total order",
  "__lt__ on the labels of each class is irreflexive, transitive and total, compatible with equality.",
  "all labels", "infinitely many", ["lie_nn/_src/irreps/*.py: __lt__", "lie_nn/_src/group_product.py: __lt__"])
p("C46", "SU(N) dim is a positive integer counting Gelfand-Tsetlin patterns",
  "For every non-increasing S the Weyl product in dim(S) is a positive integer (its assert never fires) equal to the number of patterns produced by S_to_Ms(S).",
  "every N and every weight S", "infinitely many weights", [f"{SUN}: dim, S_to_Ms, S_to_Ss"])
p("C47", "S_to_Ms enumerates exactly the Gelfand-Tsetlin patterns",
  "S_to_Ms(S) yields, without repetition and in lexicographic order, exactly the triangular patterns with top row S whose rows interlace.",
  "every S", "infinitely many", [f"{SUN}: S_to_Ms, S_to_Ss, is_valid_M"])
p("C48", "index_to_M and M_to_index invert each other",
  "index_to_M(S, i) is the i-th pattern of S_to_Ms(S) for 0 <= i < dim(S); M_to_index(index_to_M(S,i)) == i and index_to_M(S, M_to_index(M)) == M.",
  "every S, index and pattern", "infinitely many", [f"{SUN}: index_to_M, M_to_index"])
p("C49", "Ladder coefficients never fail and the ladder matrices are transposes",
  "For valid patterns the denominators are non-zero and -num/den >= 0, so compute_coeff_upper/lower never raise; lower_ladder_matrices is the transpose of upper_ladder_matrices.",
  "every S, level and pattern", "infinitely many", [f"{SUN}: compute_coeff_upper, compute_coeff_lower, upper_ladder, lower_ladder, M_add_at_lk"])
p("C50", "SU(N) ladder commutators",
  "[Jz_l, J+_l] = J+_l, [Jz_l, J-_l] = -J-_l and [J+_l, J-_l] = 2 Jz_l for every level l of every S.",
  "every S and level", "infinitely many", [f"{SUN}: upper_ladder_matrices, lower_ladder_matrices, Jz_matrices"])
p("C51", "mul_rep yields valid weights with balanced dimensions",
  "Every weight in mul_rep(S1,S2) is non-increasing with last entry 0 and length N, S1+S2 occurs, and the dimensions (with multiplicity) add up to dim(S1)*dim(S2). Moreover the characters add up to the product of the characters, and SUN.__mul__ lists the distinct weights in increasing order.",
  "every N, S1, S2", "infinitely many", [f"{SUN}: mul_rep, unique_pairs"])
p("C52", "SU(N) Clebsch-Gordan arrays are equivariant for every multiplicity index",
  "clebsch_gordan_eldest gives an orthonormal basis of the highest weight vectors; for S3 without weight multiplicities the slice 0 of clebsch_gordan_matrix is an isometric equivariant map. (The other slices, for S3 occurring several times in S1 x S2, are not equivariant, nor is slice 0 for S3 = (2,1,0): recorded as defects, C52_multiplicity_refuted and C52_adjoint_refuted.)",
  "all S1,S2,S3", "multiplicity >= 2 first occurs at 8x8 of SU(3)", [f"{SUN}: clebsch_gordan_matrix, construct_lower_cg, search_state"])
p("C53", "Symmetric-group representations",
  "For every n the generators of Sn_natural/Sn_standard/Sn_trivial represent the transposition (0 1) and the n-cycle: they satisfy H_tr^2 = 1, H_cy^n = 1, (H_tr H_cy)^(n-1) = 1 and Sn_standard is the subrepresentation of Sn_natural on e_i - e_0.",
  "every n", "all n", ["lie_nn/_src/finite.py"])
p("C54", "regular_representation is the left regular representation",
  "For every group multiplication table, D(g)D(h) = D(gh), D(e) = 1, each D(g) is a permutation matrix and D is faithful.",
  "every finite group table", "all finite groups", [f"{UT}: regular_representation"])
p("C55", "unique_with_tol clusters stably or raises",
  "On success labels are consecutive in order of first occurrence, every element is within tol of the first element of its cluster and of no other cluster's first element, centers are the cluster means; otherwise ValueError. It terminates for tol > 0.",
  "all arrays and tolerances", "all arrays; termination", [f"{UT}: unique_with_tol, eigenspaces"])
p("C56", "Root systems, Cartan matrices and Weyl dimension data",
  "For every rank that is accepted, the simple roots of types A-D give the standard Cartan matrix, the positive roots are exactly those of the standard realisation and natural combinations of the simple roots, the Weyl vector, the Coxeter number and the maximal root are the standard ones, and the fundamental weights are dual to the simple coroots (rank many of them). The last claim is false of D_n for n > 2, where the list of fundamental weights is too long and its n-th entry is wrong.",
  "every type and rank", "all ranks", ["lie_nn/_src/lie_algebra_utils.py"])
p("C57", "SON_adjoint generators lie in so(n)",
  "For every even n >= 4 the matrices of SON_adjoint preserve the standard (Fulton-Harris) symmetric form and span so(n), with repetitions. For n = 3 the code raises ValueError, and for every odd n >= 5 exactly n - 1 of the matrices do not preserve the form.",
  "every n", "all n", ["lie_nn/_src/irreps/son.py: SON_adjoint"])
p("C58", "from_string parses what it documents",
  "Printing a label canonically and parsing it with from_string gives it back, for SU2, SO3, O3, Z2, SL2C, SO13, SUN, MulIrrep ('mxir') and ReducedRep (terms joined by '+').",
  "all labels, multiplicities and lists", "all strings", ["lie_nn/_src/irreps/*.py: from_string", f"{RR}: MulIrrep.from_string, ReducedRep.from_string"])
p("C59", "is_irreducible is Schur's criterion",
  "is_irreducible returns True iff the matrices commuting with all generators are exactly the scalar multiples of one matrix (commutant of dimension 1); for unitary representations this is irreducibility, in general it is only implied by it. (In exact arithmetic, with a correct Hermitian eigensolver, identity rounding, epsilon small and no eigenvalue of the Gram operator strictly between 0 and epsilon.)",
  "all representations", "all representations", [f"{UT}: is_irreducible", "lie_nn/_src/is_irreducible.py"])
p("C60", "is_unitary and is_real characterisations",
  "In exact arithmetic is_unitary holds iff every H is unitary and every X anti-Hermitian (up to the tolerance); it is preserved by direct_sum, tensor_product and unitary change_basis; is_real holds iff a non-zero intertwiner to the conjugate exists (same conditions as C21).",
  "all representations", "all representations", ["lie_nn/_src/properties.py: is_unitary", "lie_nn/_src/real.py: is_real"])
p("C61", "reduce of a generic representation gives an equivalent ReducedRep",
  "In exact arithmetic, for a real representation, reduce(rep) either raises ValueError or returns a ReducedRep with the same generators as rep and irreducible, pairwise inequivalent summands; for suitable weights it succeeds when no irrep occurs twice. (It does not work when an irrep occurs more than once, nor for complex generators: recorded as defects, C61_multiplicity_refuted and C61_complex_refuted.)",
  "all completely reducible representations", "all representations", ["lie_nn/_src/reduce.py: reduce", f"{UT}: decompose_rep_into_irreps"])
p("C62", "basis_intersection spans the intersection",
  "P1 @ basis1 spans span(basis1) intersected with span(basis2) (and likewise P2), for real bases in exact arithmetic.",
  "all pairs of real bases", "all matrices", [f"{UT}: basis_intersection"])
p("C63", "vmap maps the function along the requested axes",
  "vmap(fun, in_axes, out_axes) returns the stack along out_axes of fun applied to the slices, or an empty array of out_shape when the axis has length 0; it raises AssertionError on inconsistent axis lengths.",
  "all functions, axes and shapes", "all functions and shapes", [f"{UT}: vmap"])
p("C64", "round_to_sqrt_rational fixes square roots of rationals",
  "If x is within rounding error of sign*sqrt(p/q) with q <= max_denominator**2 and p small enough (for the default bound: p <= q < 2**22), rounding recovers exactly sign, p and q; so exact Clebsch-Gordan coefficients survive the rounding.",
  "all p/q, signs and rounding errors within the bound", "a for-all over rationals and rounding errors", [f"{UT}: round_to_sqrt_rational, limit_denominator, as_approx_integer_ratio"])
p("C65", "SO3, O3, Z2 and SL2C Clebsch-Gordan coefficients are equivariant, orthonormal and complete",
  "For all labels allowed by the selection rule, clebsch_gordan of SO3, O3, Z2 and SL2C intertwines the continuous and the discrete generators, is real for SO3 and O3 (so the check of the imaginary part never fails), has orthonormal columns, and the arrays of all labels in ir1*ir2 together form a unitary change of basis of the tensor product.",
  "all label triples", "infinitely many irreps; tests use small ones", ["lie_nn/_src/irreps/so3_real.py", "lie_nn/_src/irreps/o3_real.py", "lie_nn/_src/irreps/z2.py", "lie_nn/_src/irreps/sl2c.py: clebsch_gordansl2mat"])
p("C66", "extend_basis completes an orthonormal basis",
  "For n*epsilon^2 < 1 (n columns), extend_basis(A) returns a unitary n x n matrix whose first rows are gram_schmidt(A); with returns='E' it returns the remaining rows, and raises ValueError when A already has full rank.",
  "all matrices, all small epsilon", "all matrices", [f"{UT}: extend_basis"])
p("C67", "The reduced tensor product basis is equivariant",
  "When the Clebsch-Gordan arrays intertwine a generator, the array returned by reduced_tensor_product_basis intertwines its action on the last axis (block-diagonal over the returned irreps) with its action on the other axes (the sum over the axes for a continuous generator, all axes in turn for a discrete one), for every list of representations with or without a change of basis Q, and every permutation symmetry.",
  "every number of indices, every group, every list of reduced representations", "data-dependent contraction order; all representations", ["lie_nn/_src/reduced_tensor_product.py: _reduced_tensor_product_basis, reduce_basis_product, constrain_rotation_basis_by_permutation_basis"])
p("C68", "Dimensions of the SO(n) and Sp(2n) representations",
  "SON.dim and SPN.dim are 1 on the zero label and positive on every label with non-negative entries, and (1, 0, ..., 0) has the dimension of the vector representation; labels with fewer than two entries raise. The last label of SO(2n) gives the vector representation instead of a half-spin one for even n > 4.",
  "every label and rank", "all ranks", ["lie_nn/_src/irreps/son.py: root_weights, weights, dim, is_scalar", "lie_nn/_src/irreps/spn.py: root_weights, weights, dim, is_scalar", "lie_nn/_src/lie_algebra_utils.py: weyl_dim"])
p("C69", "The SU(N) representations are irreducible",
  "For every dominant S (last entry >= 0) the only matrices commuting with all ladder matrices of S are the scalars, and the last basis pattern is, up to a factor, the only vector killed by all raising operators.",
  "every N and every weight S", "infinitely many weights; properties.py tests use a few", ["lie_nn/_src/irreps/sun.py: upper_ladder_matrices, lower_ladder_matrices, S_to_Ms"])
p("C70", "SUN gives representations of su(N) with one set of structure constants",
  "For every N >= 2 there are structure constants of the standard basis of su(N) such that, for every dominant S of length N with last entry >= 0, the generators returned for S satisfy them and the algebra array of SUN (computed with a pseudo-inverse from the fundamental representation) holds them. The generators are the images of that basis under a linear map that respects commutators, antihermitian, linearly independent unless all entries of S are equal, and only scalars commute with all of them.",
  "every N and every weight S", "infinitely many groups and weights; the tests check a few small ones in floating point", ["lie_nn/_src/irreps/sun.py: generators, algebra, E_basis, SUN"])
p("C71", "The reduced tensor product basis has the requested permutation symmetry",
  "When the representations are real and the irreps irreducible, every array returned by _reduced_tensor_product_basis satisfies a[x_1,...,x_n,c] = s a[x_p(1),...,x_p(n),c] for every signed permutation (s, p) of the group that it was given, in all components c, although the code constrains the component 0 of each irrep only. The result does not depend on the tolerance when this is small.",
  "every number of indices, every group of signed permutations, every list of real reduced representations", "the code checks one component; all representations and groups", ["lie_nn/_src/reduced_tensor_product.py: _reduced_tensor_product_basis, constrain_rotation_basis_by_permutation_basis, reduce_subgroup_permutation"])
p("C72", "The reduced tensor product basis spans exactly the tensors with the requested symmetry",
  "Every tensor T with T[x_1,...,x_n] = s T[x_p(1),...,x_p(n)] for all the signed permutations (s, p) of the group is a linear combination of the slices a[..., c] of the array returned by _reduced_tensor_product_basis, and only those tensors are: the greedy pairwise merging, the recursion on sub-groups, the constraint on the component 0 of each irrep and the discarding of rows that do not meet a block lose nothing.",
  "every number of indices, every group of signed permutations, every list of real reduced representations of SU2, O3 and Z2, every symmetric tensor", "a lost direction leaves all the checks of the code valid; all representations, groups and tensors", ["lie_nn/_src/reduced_tensor_product.py: _reduced_tensor_product_basis, constrain_rotation_basis_by_permutation_basis, reduced_symmetric_tensor_product_basis"])
p("C73", "The slices of the reduced tensor product basis are linearly independent",
  "No nontrivial combination of the slices a[..., c] of the array returned by _reduced_tensor_product_basis vanishes, so with C72 they form a basis of the symmetric tensors and coefficients are unique. In particular the dimensions of the irreps of reduced_symmetric_tensor_product_basis of a representation of SU2 of dimension d+1 and order n add up to the binomial coefficient (n+d choose n).",
  "every number of indices, every group of signed permutations, every list of real reduced representations of SU2, O3 and Z2", "a redundant column passes all the equivariance and symmetry checks; all representations and groups", ["lie_nn/_src/reduced_tensor_product.py: _reduced_tensor_product_basis, reduce_basis_product, constrain_rotation_basis_by_permutation_basis, reduced_symmetric_tensor_product_basis"])
p("C74", "A list of representations without symmetry always reduces, to an invertible change of basis",
  "reduced_tensor_product_basis of a nonempty list of reduced representations of positive dimension (with an invertible Q, if any) never raises. The array has the shape (d1, ..., dn, d1*...*dn), the dimensions of the irreps add up to d1*...*dn, and its slices a[..., c] are a basis of all the tensors. The result does not depend on epsilon, on the rounding or on the eigenvector routine.",
  "every number of representations of SU2, O3 and Z2, every multiplicity and invertible change of basis", "all lists of representations; an exception or a singular result for one list is not seen by tests of others", ["lie_nn/_src/reduced_tensor_product.py: reduced_tensor_product_basis, _reduced_tensor_product_basis, reduce_basis_product, IrrepsArray"])
p("C75", "A formula is reduced to a basis of the tensors with the symmetry that it states",
  "reduced_tensor_product_basis(formula, **irreps): whenever it returns, every index has the representation given for it (or for an index that the symmetry relates to it), and the slices a[..., c] are linearly independent and span exactly the tensors with T[f0] = T[w] for every term w of the formula (T[f0] = -T[w] for -w). The keyword arguments are accepted exactly when they are representations of indices of the formula, related indices that are given have the same ReducedRep object, and every index is related to one that is given; the order of iteration over the group does not matter. Since ReducedRep objects are compared by identity, giving both indices of ij=ji the same irrep raises RuntimeError. ij=ji with i an irrep of SU2 returns, ij=-ji always raises.",
  "every formula, number of terms and indices, all keyword arguments, irreps of SU2, O3 and Z2, every iteration order of the group", "all formulas and all tensors; the spanned space is infinite", ["lie_nn/_src/reduced_tensor_product.py: reduced_tensor_product_basis, _to_reducedrep", "lie_nn/_src/reduce_permutation.py: germinate_perm_repr", "lie_nn/_src/reduced_rep.py: ReducedRep"])
p("C76", "make_explicitly_real returns an equivalent representation with real matrices",
  "For an irreducible unitary representation that is equivalent to a real one, make_explicitly_real(rep) returns a representation Q rho Q^-1 whose continuous and discrete generators are all real. If S rho = conj(rho) S has no non-zero solution it raises ValueError, and if there are two independent ones (a reducible rep) its assert fails. Whatever it returns has real continuous generators up to 1e-10; the discrete generators are not checked, and for the quaternion group it returns matrices that are not real.",
  "every dimension, every Lie algebra and group relations, every irreducible unitary representation", "all irreducible representations of all groups", ["lie_nn/_src/real.py: make_explicitly_real", "lie_nn/_src/change_basis.py: change_basis", "lie_nn/_src/infer_change_of_basis.py: infer_change_of_basis"])
for r in P: print(json.dumps(r))
