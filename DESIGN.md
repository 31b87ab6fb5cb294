# Formal model of lie-nn in Rocq — design

Properties are in `properties.jsonl` (C01, C02, ...).  Their status, with exact theorem
names, is in `MANIFEST.json`.  The development is in `rocq/theories`.

## Architecture

* **Model files** transcribe the Python function by function.  Each definition cites file and
  lines in /repo and states any simplification.
* **Spec** definitions are written separately, with mathematical objects from mathcomp
  (`'M[C]_n`, `'S_n`, groups, `gcdz`, ...) and never through the model's own helpers.
* **Proof files** connect both.  **Properties_*.v** files contain the final theorems `Cxx_...`
  with a concrete example (`Example`) that meets the hypotheses beside them.  They are the
  theorems named in `MANIFEST.json`.  A theorem called `Cxx_..._refuted` proves that a
  reasonable expectation is false of the code; its comment says which.

### Conventions of the model

* Exceptions are values: `res T := Ok x | Err e`, with `e` one of AssertionError, ValueError,
  TypeError, RuntimeError, IndexError, ZeroDivisionError, ...
* Python tuples of ints: `seq nat` or `seq Z`/`seq int`.  Python sets/frozensets: lists
  considered up to membership; every theorem about a set-valued function is stated by
  membership, and where the Python iterates over a set, the theorem quantifies over every
  enumeration order.
* `while` loops are structural recursion on fuel; a theorem shows that enough fuel exists, so
  "out of fuel" never is the answer (total correctness).  Where the Python does not terminate,
  the theorem says that no amount of fuel suffices.
* numpy arrays are functional arrays: a shape (list of naturals) and an entry function on
  multi-indices; reshape is row-major; einsum is written out as the sums it denotes.
* **Numbers**: floating point is idealised to exact arithmetic in an arbitrary
  `C : numClosedFieldType` (algebraically closed field with conjugation and norm, e.g. the
  algebraic numbers; no axioms).  `np.sqrt`, `np.conj`, `1j` are `sqrtC`, `conjC`, `'i`.
  `np.allclose(a, b, rtol, atol)` is the exact predicate `|a-b| <= atol + rtol*|b|`.
  Rounding errors are therefore **not** modelled.  Python ints are exact; int64 wrap-around is
  modelled where it matters (`limit_denominator`).
* LAPACK calls (`eigh`, `svd`, `pinv`, `inv`) are arguments of the model (oracles) with their
  mathematical contract as a hypothesis; an existence example shows the contract satisfiable.

## Trusted base

* Coq 8.16.1's kernel, and `coqc`'s handling of files.  No kernel check is switched off and
  nothing is admitted.
* **Axioms: none.**  `python3 tools/assumptions.py` (after the build) runs
  `Print Assumptions` on every theorem of `MANIFEST.json`: each answer is "Closed under the
  global context".  The development declares no axiom, and uses no classical or real-number
  library.  The names that `coqchk` lists (`mathcomp.ssreflect.bigop.BigOp.bigop`,
  `Coq.ssr.ssrunder.Under_rel...`, ...) are fields of opaque modules of mathcomp and of Coq's
  ssreflect, which have definitions; coqchk shows them because it looks at the module types.
* Libraries: Coq's standard library, mathcomp (ssreflect, fingroup, algebra, field,
  real_closed's `mxtens`) and mathcomp's `zify` (only to make `lia` understand mathcomp's
  numbers; its output is checked by the kernel).
* The reading of the Python by the authors of the model.  Each definition cites the lines it
  transcribes; the Python has not been executed.
* The contracts of external functions stated as hypotheses (next section).

### External functions, as hypotheses

| function | contract assumed | where it is shown satisfiable |
|---|---|---|
| `np.linalg.eigh` | for Hermitian input: real ascending eigenvalues, unitary eigenvectors, `A v = l v` (and real eigenvectors for real input in C62) | `eigh0_correct` (spectral theorem, GsMx.v, CgGenProofs.v) |
| `scipy.linalg.sqrtm` in C76 | for a normal invertible matrix A: a square root of A that is a polynomial in A | `sqrtm0_correct` (interpolation on the spectrum, Real.v) |
| `np.linalg.eig` | for diagonalizable input: an invertible matrix of eigenvectors with its eigenvalues (C61) | `C61_eig_exists` (Properties_ReduceGen.v) |
| `np.linalg.pinv` | defined in the model as the Moore-Penrose inverse of `pinv_mx`, proved to satisfy Penrose's equations (Pinv.v) | not a hypothesis |
| `scipy.linalg.sqrtm` | a square root that commutes with its argument (C39) | example in Properties_So13.v |
| `scipy.linalg.expm` | a parameter; multiplicative on commuting arguments for products (C34) | example in Properties_Util.v |
| `np.linalg.svd`, `inv` | not used by the modelled functions, except `inv` = the matrix inverse | `invmx` |
| set iteration order | any enumeration, quantified over; C09/C67 need increasing order, which CPython gives for small ints | C09_unsorted_iteration_refuted shows why |

### What a mutant is judged by

Wrong versions of the model are made in a copy of the repository, one definition at a time
(`seeded/LOG.jsonl`).  A mutant is killed when a file of the development no longer compiles
because a theorem, or a lemma on which a theorem rests, cannot be proved.  Each survivor was
either equivalent to the original (the log says why) or led to a stronger theorem, named in
`tightened`.

## What is modelled

| file of /repo/lie_nn/_src | modelled | not modelled |
|---|---|---|
| discrete_groups/perm.py | everything (Perm.v) | `rand`: only the draw of the index |
| finite.py | everything (Finite.v) | |
| rep.py | Rep.dim, lie_dim, is_trivial, create_trivial, exp_map, check_algebra_vs_generators, GenericRep, from_generators (Reps.v, Util.v) | `__repr__`, check_representation_triplet |
| direct_sum.py, change_basis.py, change_algebra.py, conjugate.py, tensor_product.py, group_product.py | everything (Reps.v, Reduced.v, Labels.v) | multipledispatch's dispatch mechanism; TabulatedIrrepProduct.clebsch_gordan |
| irrep.py, reduced_rep.py | irreps, multiplicities, generators, from_irreps, from_string (Reduced.v, Parse.v) | `__repr__` except in C58_repr_refuted |
| irreps/su2.py, so3_real.py, o3_real.py, su2_real.py, z2.py, sl2c.py, so13.py | labels, orders, iterators, generators, algebra, Clebsch-Gordan of SU2, SO3, O3, Z2, SL2C (Labels.v, Su2.v, Su2Cg.v, SoCg.v, Sl2c.v, So13.v) | Clebsch-Gordan of SU2Real and SO13 |
| irreps/sun.py | everything (Sun.v, SunCg.v) | |
| irreps/son.py, spn.py | everything but the methods that return NotImplementedError (Roots.v, SonAdj.v) | create_trivial of SON_adjoint |
| lie_algebra_utils.py | everything (Roots.v) | |
| clebsch_gordan.py, infer_change_of_basis.py, is_irreducible.py, properties.py | generic versions (LinAlg.v) | |
| util.py | vmap, rational rounding, linear algebra, permutation_sign, regular_representation, unique_with_tol, eigenspaces, decompose_rep_into_irreps, check/infer algebra (Ratio.v, LinAlg.v, Util.v, Finite.v, Reduce.v) | `round_to_sqrt_rational_sympy`, `is_integer`, `is_half_integer`, `block_diagonal` |
| jax_utils.py | matrix_power, exp_map (Util.v) | jit, dtype promotion |
| reduced_tensor_product.py | everything (RedPerm.v, Rtp.v) | parsing of keyword irreps beyond the cases of C11 |
| real.py | is_real (LinAlg.v), make_explicitly_real (Real.v) | |
| reduce.py | everything (Reduce.v) | np.random.rand is a parameter `rand`, np.linalg.eig a parameter `eig` |

## Per property

Status and theorem names: `MANIFEST.json`.  All proofs are for every input; sizes, ranks and
depths are universally quantified.

* **C01** Permutation numbering is a bijection. Factorial number system: induction on the length; to_int and from_int are mutually inverse on [0, n!), so `group n` lists every permutation once.
* **C02** Permutation tuples form a group under compose/inverse/identity. Tuples are matched with mathcomp's 'S_n; compose, inverse and identity become its group law. Error cases by computation on the checks.
* **C03** germinate returns the generated subgroup. The closure loop is an increasing chain of subsets of 'S_n: at most n!+1 rounds (Closure.v); the fixpoint is `<<gens>>`.
* **C04** is_group decides being a subgroup. is_group's double loop is closure under products and inverses; equivalence with `group_set`.
* **C05** The two sign functions agree and are homomorphisms. Both sign functions equal odd_perm: one by inversions, one by the cycle decomposition of C06.
* **C06** to_cycles returns the cycle decomposition. Loop invariant: the cycles found so far are the porbits of the visited points. Divergence on non-permutations: no amount of fuel ends.
* **C07** Index-symmetry formulas generate the full signed group. The parser on rendered formulas, then the closure loop on signed permutations (carrier of size 2 n!).
* **C08** Permutation-symmetric tensor basis is orthonormal and complete. Orbit sums of the signed group on basis tensors; orthonormality by disjoint orbits, completeness by averaging; lexicographic order gives canonical representatives (LexOrder.v).
* **C09** return_dim agrees with the basis that is built. Number of orbits with trivial stabiliser sign, against the size of the basis of C08.
* **C10** subrepr_permutation is the pointwise stabiliser restricted to the subset. Membership: restriction of the pointwise stabiliser; order by counting.
* **C11** Irreps assignment reaches the whole orbit of an index. Propagation loop: invariant that every assigned index has the object of its orbit; raises if two objects differ.
* **C12** sorted()/simplify() of IrrepsArray only permute and merge blocks. Stable sort of blocks and merging of neighbours, on the list of columns; each step preserves columns up to the stated reordering.
* **C13** The greedy contraction order terminates and covers all indices. The number of index sets decreases at each contraction; fuel bounded by the number of indices; the greedy choice minimises the stated cost.
* **C14** normalize_integer_ratio returns the reduced fraction. gcd arithmetic in Z.
* **C15** limit_denominator returns a best approximation. Continued-fraction invariants (determinant +-1) in Z; best approximation by the Stern-Brocot argument.
* **C16** limit_denominator is safe in int64. Every intermediate of C15 bounded in Z, then wrap-around is the identity.
* **C17** as_approx_integer_ratio accuracy and domain. frexp-style decomposition; float division only assumed within 2^-53.
* **C18** gram_schmidt returns an orthonormal system spanning the rows. Invariant of the loop on rows: orthonormal, spans the rows accepted so far, residual bounded (GsMx.v).
* **C19** nullspace returns an orthonormal basis of the kernel. Spectral theorem; eigenvalues of A^H A below and above the threshold.
* **C20** sequential_nullspace equals the joint null space. Induction on the list: the null space of the stacked prefix; the stopping rule.
* **C21** infer_change_of_basis finds exactly the intertwiners. Kernel of the Sylvester operator through C20; normalisation by a positive scalar.
* **C22** clebsch_gordan of generic representations is equivariant. C21 applied to the tensor product, and unfolding of the reshape.
* **C23** direct_sum is a representation. Block-diagonal matrices multiply blockwise.
* **C24** tensor_product of generic representations. Kronecker products: X (x) 1 + 1 (x) X satisfies the relations of the theory.
* **C25** tensor_power is the n-fold tensor product. Induction on the fuel through C24.
* **C26** group_product is a representation of the product group. Kronecker factors commute.
* **C27** change_basis conjugates the representation. Conjugation by an invertible matrix.
* **C28** change_algebra transforms structure constants covariantly. Moore-Penrose inverse cancels on the left; trilinear rewriting.
* **C29** conjugate is a representation of the same algebra. conjC is a ring morphism; refuted for complex constants by an explicit algebra.
* **C30** create_trivial is trivial and neutral. Unfolding, neutral element of C24.
* **C31** MulIrrep and ReducedRep are representations of the stated dimension. Block sums of copies; induction on the list.
* **C32** Specialised tensor_product overloads agree with the generic one. Intertwiners given by entries (Intw.v); completeness makes Q invertible; induction over lists of blocks.
* **C33** check_algebra_vs_generators and infer_algebra_from_generators. Entrywise characterisation of allclose; inference by linear independence of the generators.
* **C34** exp_map orders the discrete generators left of the exponential. Order of the products in the loop; Kronecker and block products.
* **C35** jax matrix_power computes F^n. Binary exponentiation invariant on bits.
* **C36** SU2 generators satisfy the su(2) algebra and are anti-Hermitian. Entries of ladder matrices, sqrtC identities.
* **C37** SO3/O3/SU2Real real-basis generators. Unitary change of basis to real matrices; entrywise.
* **C38** SL2C generators satisfy the sl(2,C) algebra. Tensor products of two su(2) representations.
* **C39** SO13 generators and four_vector satisfy the so(1,3) algebra. C37/C38 and eigh/sqrtm contracts; symmetric unitary square root.
* **C40** SU2 Clebsch-Gordan coefficients are equivariant. Racah's alternating sum: two three-term recurrences (CgSum.v), then entrywise equivariance.
* **C41** SU2 Clebsch-Gordan matrices are orthonormal. Normalisation by a telescoping recurrence, orthogonality by Casimir eigenvalues; completeness by dimension.
* **C42** Selection rules of SU2/SO3/O3/SL2C/SO13/Z2 balance dimensions. Lists of labels as intervals with step 2; sums of dimensions by induction.
* **C43** The selection rule agrees with the Clebsch-Gordan array shape. Shapes of the arrays and membership in the lists of C42.
* **C44** iterator() enumerates every label once, in increasing order, trivial first. Iterators as enumerations of nat / pairs by diagonal; strictly increasing and surjective.
* **C45** __lt__ is a strict total order. Lexicographic orders.
* **C46** SU(N) dim is a positive integer counting Gelfand-Tsetlin patterns. Branching identity of the Weyl product: determinants of polynomials of increasing degree (SunDet.v); induction on N.
* **C47** S_to_Ms enumerates exactly the Gelfand-Tsetlin patterns. Rows in lexicographic order; induction on N.
* **C48** index_to_M and M_to_index invert each other. Uniqueness and sortedness of the list of C47.
* **C49** Ladder coefficients never fail and the ladder matrices are transposes. Signs of the Gelfand-Tsetlin coefficients under interlacing (SunRow.v).
* **C50** SU(N) ladder commutators. Residue identity for rational functions (SunLagr.v), exchange of moves in the same and in adjacent rows.
* **C51** mul_rep yields valid weights with balanced dimensions. The patterns kept by mul_rep are those whose partial weights stay dominant (SunLR.v); the others cancel in every alternating sum by a sign-reversing involution, a toggle of one row of the pattern (SunTog.v). Bender-Knuth symmetry of the weights then gives the dimension count and the character identity (SunTp.v).
* **C52** SU(N) Clebsch-Gordan arrays are equivariant for every multiplicity index. False as stated, and proved where it holds. clebsch_gordan_eldest returns an orthonormal basis of the highest weight vectors (SunCgProofs.v). The Gram matrix of the words in the lowering operators depends only on the highest weight (SunHw.v), so for S3 without weight multiplicities the loop builds an isometric intertwiner (SunCgLoop.v). The slices alpha >= 1 are never equivariant, nor is the slice 0 for S3 = (2,1,0): each column is a multiple of one lowered column (SunCgRef.v, SunIrr.v).
* **C53** Symmetric-group representations. Coxeter relations in 'S_n; standard representation as the quotient of the natural one.
* **C54** regular_representation is the left regular representation. Group axioms on the table.
* **C55** unique_with_tol clusters stably or raises. Loop invariant on clusters; divergence for tol <= 0.
* **C56** Root systems, Cartan matrices and Weyl dimension data. Coordinates of every vector; case analysis on positions; sums over pairs.
* **C57** SON_adjoint generators lie in so(n). Entries of X^T M + M X; the involution of the form halves a matrix of so(n).
* **C58** from_string parses what it documents. Printer/parser round trip, induction on digits and lists.
* **C59** is_irreducible is Schur's criterion. Commutant of the generators through C21; Schur for unitary representations.
* **C60** is_unitary and is_real characterisations. Unfolding of the tests; closure properties.
* **C61** reduce of a generic representation gives an equivalent ReducedRep. False as stated, and proved where it holds (Reduce*.v). `draw` reaches exactly the commutant (C21). For real generators the blocks of the spectral decomposition of M are subrepresentations, compressed by two Gram-Schmidt passes to orthonormal rows; each block has a one-dimensional space of intertwiners into r iff M separates the irreps, and then the concatenated intertwiners are an invertible change of basis. Otherwise the reshape of the intertwiners raises ValueError: this is the case for all weights as soon as the commutant is not commutative, and for a complex 2-dimensional representation whose eigenvectors are not real. Without multiplicity the weights that fail lie on finitely many hyperplanes, one for each pair of irreps (Properties_ReduceGen.v).
* **C62** basis_intersection spans the intersection. Eigenvectors of P Q P with eigenvalue 1 for orthogonal projectors; explicit gap.
* **C63** vmap maps the function along the requested axes. Exact meaning of axes; induction on the list of slices.
* **C64** round_to_sqrt_rational fixes square roots of rationals. C17 with a bound on the error of the square.
* **C65** SO3, O3, Z2 and SL2C Clebsch-Gordan coefficients are equivariant, orthonormal and complete. C40/C41 transported by unitary matrices and tensor products.
* **C66** extend_basis completes an orthonormal basis. C18 on the stacked matrix.
* **C67** The reduced tensor product basis is equivariant. A property of columns preserved by every operation of the loop (RtpPres.v); equivariance of coefficients from C40, C65.
* **C68** Dimensions of the SO(n) and Sp(2n) representations. Telescoping products in Weyl's formula; dominance of the fundamental weights.
* **C69** The SU(N) representations are irreducible. A vector killed by all raising operators is supported on the patterns whose lower rows are truncations of the rows above, by induction from the last row; then raise to the highest pattern (SunIrr.v).
* **C70** SUN gives representations of su(N) with one set of structure constants. The Serre relations follow from the relations between simple ladder matrices and adjointness (a commutator X with [X, X*] known and weight argument vanishes: SunGl.v), so E_basis gives a representation of gl(N); the standard basis of su(N) is independent (SunBasis.v), so the pseudo-inverse in `algebra` recovers its structure constants (SunGen.v). C52_generators: equivariance for the ladder matrices is equivariance for the generators (SunGenEq.v). Trusted: `np.linalg.pinv` is exact.
* **C71** The reduced tensor product basis has the requested permutation symmetry. Every step of the loop is eventually constant in the tolerance (RtpStab.v) and keeps real arrays real (RtpReal.v). The component 0 of a returned column lies in the intersection of the spans of the block and of the permutation basis (C62), so it has the symmetry of the latter (RtpSym.v). A column minus its permuted copy is equivariant (C67), so the components on which it vanishes are an invariant subspace of the irrep that contains the component 0, hence everything (RtpSymAll.v). The square of an irrep of SU2 (Properties_RtpSq.v): the blocks of the product are the Clebsch-Gordan arrays (RtpTwo.v); the component 0 of the largest irrep is supported at (0,0), where antisymmetric tensors vanish, so no row of the permutation basis is left and basis_intersection raises; in the symmetric case some row always meets each block (RtpCon.v).
* **C72** The reduced tensor product basis spans exactly the tensors with the requested symmetry. `Full` (RtpFull.v): every tensor with the symmetry of the elements of the group that fix the index set f is in the span of the columns of the basis of f. It holds of the initial bases (Q is invertible) and is kept by products (the Clebsch-Gordan arrays are complete), by sorting and simplifying, by reshaping from the sub-group (RtpFullAll.v) and by the constraint (RtpFullCon.v). The last is the main step: the code intersects the component 0 of each block, one block at a time, with the rows of the permutation basis. A symmetric T is a sum over blocks and components; the operator that is the matrix unit (0,k) of one irrep and 0 on the others is a polynomial in the generators ([dense], RtpSpan.v), it commutes with the permutations, and turns T into a symmetric tensor in the component 0 of one block. Density (RtpDense.v): the Casimir operator separates the irreps of SU2 (with the parity, O3), the diagonal generator separates the components, the ladder operators connect them.
* **C73** The slices of the reduced tensor product basis are linearly independent. `Indb` (RtpIndAll.v): the columns of the basis of an index set f are independent. Initial bases and products: as many columns as needed that span an independent family (RtpInd.v: `ind_count`, by ranks); for a product the family is the products of the columns, and the numbers agree because the dimensions of the irreps of a product add up (`cg_count`). Constraint: the rows of the matrix P of basis_intersection are orthonormal (C62), so a combination of the new columns is a combination of the old ones whose coefficients determine it. Reshape: the same entries. The dimension of a symmetric power (Properties_RtpInd.v): the tensors that are 1 on the indices that sort to a given sorted index are another basis of the symmetric tensors, and the sorted tuples are counted by a binomial coefficient.
* **C74** A list without symmetry always reduces, to an invertible change of basis. `Good` (RtpList.v): the blocks of the basis of an index set f have the right shapes, independent columns and span all the tensors on f. Every function of the path is shown to return Ok on `Good` input and to keep `Good`: init_basis (np.linalg.inv succeeds), reduce_basis_product (all the einsum, broadcast and reshape conditions), reshape (the masked dimensions have the same product), sorted and simplify. The subgroup of the trivial group is trivial (`subrepr_triv`), so the constraint is never called and the result is one value for all roundings, eigenvector routines and tolerances. As many independent columns as entries span everything (`ind_all`). By induction on the fuel, over all partitions reached by the loop.
* **C75** A formula is reduced to a basis of the tensors with the symmetry that it states. RtpFormula.v models the formula branch (reduced_tensor_product.py:83-90, 126-157): the keyword arguments as a dictionary of objects, where `inl i` is an object of the caller and `inr k` one created by _to_reducedrep, because `!=` on ReducedRep compares objects (no `__eq__` in reduced_rep.py or rep.py); the iteration order of the frozenset perm_repr is any function with the same elements. The propagation loop only adds entries; it is shown by induction on the pairs, with an equivalence relation as parameter, to succeed exactly when related entries agree (`run_inv`, `run_ok`). `formula_symmetricP`: the symmetry under the generated group (C07) is the symmetry under the terms, for index values assigned to the names; by induction on the generation of the group. The spanning and independence come from C72 and C73. The spec (`formula_symmetric`, `index_reps`, `formula_basis`) mentions only the names of the indices, the terms and the tensors.
* **C76** make_explicitly_real returns an equivalent representation with real matrices. Real.v models real.py:12-20 with the generic change_basis. The solutions of S rho = conj(rho) S form a line by Schur's lemma, spanned by conj(R)^-1 R for any basis R in which rho is real. The transpose of a solution is a solution, so S^T = S or S^T = -S; the second contradicts S conj(S) > 0. A square root Q of S that is a polynomial in S is symmetric and normal, Q conj(Q) squares to a positive scalar and is positive, so it is a scalar (`sqrt_real`), and conj(Q rho Q^-1) = Q rho Q^-1. The spec (`real_basis`, `irreducible`, `exact_unitary`) does not mention the code. Properties_RealQ.v: the quaternion group, whose solution S is antisymmetric; only rep.X is tested by the code, so the result is returned although it is not real (`C76_discrete_refuted`).

## Not modelled at all

Floating-point rounding, jax tracing/jit/device semantics, the multipledispatch mechanism itself (the overloads
are modelled as separate functions, plus the resolution used by each call), random sampling,
printing/`__repr__`, performance and caching (`lru_cache` is the identity on pure functions).

