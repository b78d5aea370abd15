{"id": "C01", "title": "Point group elements form a group", "statement": "For PointGroupElements whose R is invertible and whose U (if present) is unitary, `*` is associative, `identity()` is a two-sided unit, `g*g.inv()` and `g.inv()*g` both equal the identity, including the conjugation and antisymmetry flags and the matrix U itself (not only up to phase), and `g**m * g**n == g**(m+n)` for all integers m, n. If either U is None the product's U is None.", "quantifier": "all space dimensions, all Hilbert space dimensions, all invertible R, all unitary U, all four flag combinations, all integer exponents", "why_tests_cant": "The law mixes complex conjugation of U with antiunitarity; a test checks finitely many pairs of matrices, not every (R, conjugate, antisymmetry, U).", "anchors": ["qsymm/groups.py:PointGroupElement.__mul__", "qsymm/groups.py:PointGroupElement.inv", "qsymm/groups.py:PointGroupElement.__pow__", "qsymm/groups.py:PointGroupElement.identity"]}
{"id": "C02", "title": "apply is a left group action on Hamiltonians", "statement": "`(g*h).apply(H) == g.apply(h.apply(H))` and `g.inv().apply(g.apply(H)) == H`, for every Hamiltonian given as a function of momentum built from model terms, for unitary and antiunitary, symmetric and antisymmetric elements.", "quantifier": "all Models (any finite set of terms, any matrix size), all pairs of elements with invertible R and unitary U, all momenta", "why_tests_cant": "Order of conjugation, sign of the momentum and sign of the energy must compose correctly for all 16 flag pairs and every model.", "anchors": ["qsymm/groups.py:PointGroupElement.apply", "qsymm/model.py:Model.rotate_momenta", "qsymm/model.py:Model.conj"]}
{"id": "C03", "title": "apply preserves Hermiticity and ignores the phase of U", "statement": "If H(k) is Hermitian for every k then g.apply(H)(k) is Hermitian for every k; and replacing U by exp(i phi) U does not change g.apply(H).", "quantifier": "all models, all elements, all unit phases", "why_tests_cant": "Quantifies over all matrices and all momenta.", "anchors": ["qsymm/groups.py:PointGroupElement.apply"]}
{"id": "C04", "title": "generate_group returns exactly the generated group", "statement": "If the products of the generators take finitely many distinct values, generate_group(gens) terminates and returns exactly the set of values of all non-empty products of generators: it contains the generators, is closed under multiplication, contains the identity and all inverses when gens is non-empty, and no proper subset containing the generators is closed.", "quantifier": "every multiplication with decidable equality that is associative, every finite generator set", "why_tests_cant": "The loop multiplies only new elements by generators; that this saturates is an inductive argument over words of unbounded length.", "anchors": ["qsymm/groups.py:generate_group"]}
{"id": "C05", "title": "generate_group returns a group for every generator set", "statement": "For every set of generators of a finite group (including the empty set) generate_group(gens) contains the identity, so that the result is a group.", "quantifier": "all generator sets, including the empty one", "why_tests_cant": "A statement about every input; the empty input is the corner case that is easy to miss.", "anchors": ["qsymm/groups.py:generate_group"]}
{"id": "C06", "title": "generate_subgroups is sound and complete", "statement": "For a finite group G, the keys of generate_subgroups(G) are exactly the subgroups of G (trivial group and G included), each exactly once, and each key is mapped to a generator set that generates exactly it.", "quantifier": "all finite groups", "why_tests_cant": "Completeness over all subgroups of all finite groups is a statement about an unbounded breadth-first search with an early exit test.", "anchors": ["qsymm/groups.py:generate_subgroups", "qsymm/groups.py:generate_group"]}
{"id": "C07", "title": "generate_subgroups finds minimal generator sets", "statement": "The generator set that generate_subgroups associates to a subgroup has the smallest possible number of generators.", "quantifier": "all finite groups and all of their subgroups", "why_tests_cant": "Minimality compares with every other generator set of the same subgroup.", "anchors": ["qsymm/groups.py:generate_subgroups"]}
{"id": "C08", "title": "discrete_symmetries pruning never changes the answer", "statement": "If the symmetric elements form a subgroup, discrete_symmetries(model, candidates) returns exactly the group generated by the symmetric candidates, although it skips candidates: no skipped candidate is mis-classified, whatever order candidates are examined in; with generators=True it returns elements that generate that group.", "quantifier": "all finite candidate sets, all subgroups of symmetric elements, all outcomes of the symmetry test consistent with a subgroup", "why_tests_cant": "The pruning of non-symmetries is history dependent; correctness needs an invariant over the whole search.", "anchors": ["qsymm/symmetry_finder.py:discrete_symmetries", "qsymm/groups.py:generate_group", "qsymm/groups.py:set_multiply"]}
{"id": "C09", "title": "Ordering of point group elements is a strict total order with the identity first", "statement": "`<` on PointGroupElements with exact R is irreflexive, transitive and total on distinct (R, conjugate, antisymmetry), elements with R equal to identity precede the other elements with the same flags, and the identity element is smaller than all others, so sorting is deterministic.", "quantifier": "all exact (integer) matrices of a given dimension and all flags", "why_tests_cant": "Transitivity quantifies over triples of arbitrary elements.", "anchors": ["qsymm/groups.py:PointGroupElement.__lt__", "qsymm/groups.py:PointGroupElement.__eq__"]}
{"id": "C10", "title": "Equal point group elements hash equal", "statement": "If g == h then hash(g) == hash(h), so that sets of PointGroupElements contain no two equal elements.", "quantifier": "all pairs of elements, for every representation of R (integer, float, sympy)", "why_tests_cant": "Contract between two methods over every pair of inputs and representations.", "anchors": ["qsymm/groups.py:PointGroupElement.__eq__", "qsymm/groups.py:PointGroupElement.__hash__", "qsymm/groups.py:_eq"]}
{"id": "C11", "title": "Equality of point group elements is an equivalence relation", "statement": "`==` on PointGroupElements is reflexive, symmetric and transitive.", "quantifier": "all triples of elements, including floating point R compared with a tolerance", "why_tests_cant": "Transitivity ranges over triples; the tolerance makes it fail only on special triples.", "anchors": ["qsymm/groups.py:PointGroupElement.__eq__", "qsymm/groups.py:_eq", "qsymm/linalg.py:allclose"]}
{"id": "C12", "title": "Model addition, negation and subtraction act pointwise", "statement": "For models of the same shape and momenta, evaluating a+b, a-b, -a, s*a, a/s at any values of the symbols gives the sum, difference, negative, multiple and quotient of the evaluations; empty models act as zero; models of different shape or momenta are rejected.", "quantifier": "all models and all assignments of values to symbols", "why_tests_cant": "Equality of evaluations for every assignment and every pair of dictionaries of terms.", "anchors": ["qsymm/model.py:Model.__add__", "qsymm/model.py:Model.__neg__", "qsymm/model.py:Model.__sub__", "qsymm/model.py:Model.__mul__", "qsymm/model.py:Model.__truediv__"]}
{"id": "C13", "title": "Model products act pointwise", "statement": "For models a, b without a keep set, evaluating a*b (scalar or elementwise values) and a@b at any values of the symbols gives the product of the evaluations; hence products are associative and distribute over sums on evaluation.", "quantifier": "all models, all assignments", "why_tests_cant": "Needs an argument over double sums for dictionaries of any size with colliding keys.", "anchors": ["qsymm/model.py:Model.__mul__", "qsymm/model.py:Model.__matmul__", "qsymm/model.py:Model.__rmul__"]}
{"id": "C14", "title": "conj, T and trace of a Model act pointwise", "statement": "Evaluating m.conj(), m.T(), m.trace() and m.T().conj() at any real values of the symbols gives the complex conjugate, transpose, trace and Hermitian adjoint of the evaluation of m; conj and T are involutions.", "quantifier": "all models, all real assignments", "why_tests_cant": "Term keys contain the imaginary unit; conjugation may merge or permute keys.", "anchors": ["qsymm/model.py:Model.conj", "qsymm/model.py:Model.T", "qsymm/model.py:Model.trace"]}
{"id": "C15", "title": "Missing terms read as zero and reading does not insert them", "statement": "m[key] for a key that is not present returns the zero of the model's shape and leaves the model unchanged; m[key] after m[key]=v returns v and leaves all other keys unchanged; assigning a value of a different shape or format is rejected.", "quantifier": "all models, keys and values", "why_tests_cant": "A read-after-write law over every state.", "anchors": ["qsymm/model.py:Model.__getitem__", "qsymm/model.py:Model.__missing__", "qsymm/model.py:Model.__setitem__"]}
{"id": "C16", "title": "Adding a constant keeps a Model usable", "statement": "For every model m and constant c, the terms of m + c are keyed by sympy objects (BlochCoeff for a BlochModel), so that conj(), subs() and apply() still work on m + c.", "quantifier": "all models (with or without a constant term) and all constants", "why_tests_cant": "Only fails for models without a constant term; ranges over every model.", "anchors": ["qsymm/model.py:Model.__add__", "qsymm/model.py:Model.__setitem__", "qsymm/model.py:Model.conj", "qsymm/model.py:BlochModel.conj"]}
{"id": "C17", "title": "Model construction from a dictionary is additive", "statement": "Constructing a Model from a dictionary gives a model whose evaluation is the sum over the entries of (value of the key) * (value), also when several of the keys denote the same symbolic expression.", "quantifier": "all input dictionaries", "why_tests_cant": "Collisions occur only for special pairs of keys.", "anchors": ["qsymm/model.py:Model.__init__", "qsymm/model.py:_symbol_normalizer"]}
{"id": "C18", "title": "keep truncates products consistently", "statement": "If a, b have keep set K which is closed under taking divisors, then a*b equals the truncation to K of the product of the untruncated models; every model built by the constructor, by products or by scalar multiplication contains only keys of its keep set.", "quantifier": "all models, all divisor-closed keep sets", "why_tests_cant": "Truncating early is only sound by an argument over all cofactors.", "anchors": ["qsymm/model.py:Model.__init__", "qsymm/model.py:Model.__mul__", "qsymm/model.py:Model.__matmul__"]}
{"id": "C19", "title": "keep survives every operation", "statement": "After any Model operation on a model with non-empty keep (including +, rotate_momenta, transform_symbolic and apply) the result still carries the keep set and contains only keys of the keep set.", "quantifier": "all operations and all models with a keep set", "why_tests_cant": "An invariant over histories of operations.", "anchors": ["qsymm/model.py:Model.__add__", "qsymm/model.py:Model.transform_symbolic", "qsymm/model.py:Model.rotate_momenta"]}
{"id": "C20", "title": "Model equality is symmetric", "statement": "a == b if and only if b == a, for all models.", "quantifier": "all pairs of models, with the library's tolerances", "why_tests_cant": "The asymmetric branch is only visible for values next to the tolerance.", "anchors": ["qsymm/model.py:Model.allclose", "qsymm/model.py:Model.__eq__", "qsymm/linalg.py:allclose"]}
{"id": "C21", "title": "eliminate_zeros, around and allclose are controlled by their tolerances", "statement": "eliminate_zeros removes exactly the terms with norm below max(atol, rtol*largest norm), so the result is a sub-dictionary, the operation is idempotent, never removes the largest term unless it is below atol and changes any evaluation at symbols of modulus at most 1 by at most (number of removed terms)*tolerance.", "quantifier": "all models, all atol >= 0 and 0 <= rtol <= 1", "why_tests_cant": "Bounds for every model and tolerance.", "anchors": ["qsymm/model.py:Model.eliminate_zeros"]}
{"id": "C22", "title": "Rotating momenta composes and commutes with evaluation", "statement": "m.rotate_momenta(R) evaluated at k equals m evaluated at R@k; hence rotating by R1 and then R2 equals rotating by R1@R2; the same holds for BlochModel, and converting a BlochModel to a Model commutes with rotation, conjugation, addition and multiplication.", "quantifier": "all models, all matrices R, all momenta", "why_tests_cant": "Equality of functions of momentum for every R.", "anchors": ["qsymm/model.py:Model.rotate_momenta", "qsymm/model.py:BlochModel.rotate_momenta", "qsymm/model.py:BlochModel.conj", "qsymm/model.py:BlochModel.tomodel", "qsymm/model.py:BlochCoeff.__mul__"]}
{"id": "C23", "title": "matrix_basis is a basis of the requested space", "statement": "matrix_basis(dim, traceless, antihermitian, real, sparse) yields matrices that are Hermitian (antihermitian if requested), real if requested, traceless if requested, linearly independent over the reals and span over the reals all matrices with these properties; without `real` they also span all (traceless) complex matrices over the complex numbers.", "quantifier": "all dimensions and all flag combinations", "why_tests_cant": "Independence and spanning for every dimension.", "anchors": ["qsymm/linalg.py:matrix_basis"]}
{"id": "C24", "title": "solve_mat_eqn returns all solutions", "statement": "solve_mat_eqn(HL, HR, hermitian, traceless) with exact null spaces returns linearly independent matrices whose span is the set of all X with X HL[i] = HR[i] X for all i (Hermitian, over the reals, if hermitian=True; traceless if traceless=True).", "quantifier": "all families HL, HR, all dimensions, all flags with conjugate=False; conjugate=True with hermitian=True", "why_tests_cant": "Completeness quantifies over all solutions.", "anchors": ["qsymm/linalg.py:solve_mat_eqn", "qsymm/linalg.py:nullspace", "qsymm/linalg.py:matrix_basis"]}
{"id": "C25", "title": "solve_mat_eqn handles conjugation for general matrices", "statement": "With conjugate=True (and hermitian=False) solve_mat_eqn returns matrices that span all solutions of X HL[i] = HR[i] X.conj().", "quantifier": "all families HL, HR", "why_tests_cant": "The equation is antilinear; failing inputs are special.", "anchors": ["qsymm/linalg.py:solve_mat_eqn"]}
{"id": "C26", "title": "nullspace and its complement", "statement": "nullspace(A, atol) returns orthonormal rows v with |A v| <= atol, and with return_complement the complementary orthonormal rows on each of which |A v| > atol; together they are an orthonormal basis, and when atol is below the smallest non-zero singular value the rows span exactly the null space.", "quantifier": "all matrices A, for any correct singular value decomposition", "why_tests_cant": "For every matrix and every decomposition the external routine may return.", "anchors": ["qsymm/linalg.py:nullspace"]}
{"id": "C27", "title": "nullspace complement spans the row span", "statement": "The complement returned by nullspace(A, return_complement=True) is an orthonormal basis of the row span of A.", "quantifier": "all complex matrices", "why_tests_cant": "Holds for real matrices, so tests with real matrices cannot see the failure.", "anchors": ["qsymm/linalg.py:nullspace"]}
{"id": "C28", "title": "Sparse nullspace finds every null space of admissible dimension", "statement": "For a sparse symmetric problem of size N whose null space has dimension at most N-2, nullspace(A, sparse=True) returns the full null space instead of raising ValueError.", "quantifier": "all sizes N, all null space dimensions up to N-2, k_max=-1", "why_tests_cant": "The step size of the search makes it fail only for particular sizes.", "anchors": ["qsymm/linalg.py:nullspace"]}
{"id": "C29", "title": "rref is a reduced row echelon form with its transformation", "statement": "rref(m, return_S=True) returns (r, S) with S invertible and r = S m for every positive tolerance (and every m not close to zero), the pivot columns of r are unit vectors with strictly increasing positions, and with exact zero tests r is the reduced row echelon form of m, so row span is preserved and equal row spans give equal results.", "quantifier": "all matrices and tolerances", "why_tests_cant": "Loop invariant over all pivots.", "anchors": ["qsymm/linalg.py:rref"]}
{"id": "C30", "title": "rref always honours return_S", "statement": "rref(m, return_S=True) returns a pair (r, S) for every m, with m = S r as documented.", "quantifier": "all matrices including zero", "why_tests_cant": "The zero matrix takes an early return.", "anchors": ["qsymm/linalg.py:rref", "qsymm/hamiltonian_generator.py:make_basis_pretty"]}
{"id": "C31", "title": "family_to_vectors is a faithful real-linear encoding", "statement": "For models over the given keys, a real linear combination of a family vanishes if and only if the same combination of the rows of family_to_vectors(family) vanishes; the routine rejects families with terms outside all_keys.", "quantifier": "all families and real coefficients", "why_tests_cant": "An equivalence over all coefficient vectors.", "anchors": ["qsymm/linalg.py:family_to_vectors"]}
{"id": "C32", "title": "constrain_family returns all symmetric combinations", "statement": "When constrain_family(symmetries, family) returns, the real span of the result is exactly the set of real combinations of the family that are invariant under all discrete symmetries and annihilated by all continuous generators.", "quantifier": "all families, all lists of symmetries, exact null spaces", "why_tests_cant": "Completeness over all coefficient vectors.", "anchors": ["qsymm/hamiltonian_generator.py:constrain_family", "qsymm/hamiltonian_generator.py:check_symmetry"]}
{"id": "C33", "title": "constrain_family accepts every family", "statement": "constrain_family(symmetries, family) returns (never raises) for every non-empty family of models of matching shape and every list of symmetries.", "quantifier": "all families and all lists of symmetries, including the empty list and families not closed under the symmetry", "why_tests_cant": "Failing inputs are families whose own keys are not produced by any symmetry, and empty symmetry lists.", "anchors": ["qsymm/hamiltonian_generator.py:constrain_family", "qsymm/linalg.py:family_to_vectors"]}
{"id": "C34", "title": "continuum_variables enumerates monomials exactly", "statement": "continuum_variables(dim, n, all_powers, momenta) returns, each exactly once, all monomials of total degree n in the first dim momenta whose exponents are allowed.", "quantifier": "all dims >= 1, all total powers, all sets of allowed powers", "why_tests_cant": "Unbounded dimension and degree.", "anchors": ["qsymm/hamiltonian_generator.py:continuum_variables"]}
{"id": "C35", "title": "continuum_hamiltonian is sound and complete", "statement": "The family returned by continuum_hamiltonian spans (over the reals) exactly the set of polynomials in momenta with Hermitian matrix coefficients, with the allowed powers, that satisfy all prescribed symmetries.", "quantifier": "all lists of symmetries, dims, powers, exact null spaces", "why_tests_cant": "Completeness over all Hamiltonians.", "anchors": ["qsymm/hamiltonian_generator.py:continuum_hamiltonian", "qsymm/hamiltonian_generator.py:constrain_family", "qsymm/hamiltonian_generator.py:continuum_variables", "qsymm/linalg.py:matrix_basis"]}
{"id": "C36", "title": "continuum_hamiltonian returns linearly independent terms in every dimension", "statement": "The members returned by continuum_hamiltonian are linearly independent, for every dim and total_power.", "quantifier": "all dims including zero", "why_tests_cant": "Zero-dimensional systems take a separate branch.", "anchors": ["qsymm/hamiltonian_generator.py:continuum_variables", "qsymm/hamiltonian_generator.py:continuum_hamiltonian"]}
{"id": "C37", "title": "symmetrize_monomial projects on the invariant subspace", "statement": "For a set of elements closed under multiplication (up to the phase of U), symmetrize_monomial(m, group) is invariant under every element, equals m if m is already invariant, and is idempotent and real-linear.", "quantifier": "all finite groups of elements, all monomials", "why_tests_cant": "An averaging argument over the whole group.", "anchors": ["qsymm/hamiltonian_generator.py:symmetrize_monomial", "qsymm/groups.py:PointGroupElement.apply"]}
{"id": "C38", "title": "remove_duplicates keeps the span and removes dependence", "statement": "remove_duplicates(family) is linearly independent over the reals and has the same real span as family.", "quantifier": "all families, exact null spaces", "why_tests_cant": "Span equality over all combinations.", "anchors": ["qsymm/hamiltonian_generator.py:remove_duplicates", "qsymm/linalg.py:nullspace", "qsymm/linalg.py:family_to_vectors"]}
{"id": "C39", "title": "make_basis_pretty keeps the span", "statement": "make_basis_pretty(family) returns a family with the same number of members and the same span, for every family it accepts.", "quantifier": "all families and tolerances", "why_tests_cant": "Uses invertibility of the accumulated row operations.", "anchors": ["qsymm/hamiltonian_generator.py:make_basis_pretty", "qsymm/linalg.py:rref"]}
{"id": "C40", "title": "subtract_family returns a complement inside family1", "statement": "When subtract_family(family1, family2) returns a family, its span is a subspace of span(family1) which meets span(family2) only in zero and together with span(family2) contains span(family1).", "quantifier": "all families, exact null spaces", "why_tests_cant": "Subspace statements over all combinations.", "anchors": ["qsymm/hamiltonian_generator.py:subtract_family"]}
{"id": "C41", "title": "subtract_family removes the parallel components", "statement": "The family returned by subtract_family(family1, family2) is orthogonal to every member of family2, as documented (`remove the linear span of family2 from the span of family1 using orthogonal projection`).", "quantifier": "all families for which the subtraction is accepted", "why_tests_cant": "Holds for special bases, fails for generic ones.", "anchors": ["qsymm/hamiltonian_generator.py:subtract_family"]}
{"id": "C42", "title": "bloch_family hopping terms are Hermitian and respect the selection", "statement": "Every member of bloch_family before symmetrisation is Hermitian for every momentum, and with symmetrize=True every returned member is Hermitian and invariant under every symmetry supplied.", "quantifier": "all hopping lists, norbs and finite symmetry groups", "why_tests_cant": "For all momenta and all group elements.", "anchors": ["qsymm/hamiltonian_generator.py:bloch_family", "qsymm/hamiltonian_generator.py:symmetrize_monomial"]}
{"id": "C43", "title": "Library calls do not modify their arguments", "statement": "bloch_family leaves the symmetries passed by the caller unchanged: comparing them with == gives the same answer before and after the call.", "quantifier": "all symmetry sets", "why_tests_cant": "A frame property over every input state.", "anchors": ["qsymm/hamiltonian_generator.py:bloch_family", "qsymm/groups.py:PointGroupElement.__eq__"]}
{"id": "C44", "title": "spin_matrices satisfy angular momentum algebra", "statement": "spin_matrices(s) returns Hermitian matrices with [Sx,Sy]=iSz and cyclic permutations and Sx^2+Sy^2+Sz^2=s(s+1) for every integer or half-integer s.", "quantifier": "all spins s >= 0", "why_tests_cant": "All dimensions 2s+1.", "anchors": ["qsymm/groups.py:spin_matrices"]}
{"id": "C45", "title": "L_matrices satisfy angular momentum algebra", "statement": "L_matrices(3, l) for l=1,2 are Hermitian, purely imaginary, satisfy [Lx,Ly]=iLz and cyclic permutations and L^2=l(l+1); L_matrices(2,1) generates planar rotations.", "quantifier": "all supported (d, l)", "why_tests_cant": "Exact algebraic identity rather than floating point agreement.", "anchors": ["qsymm/groups.py:L_matrices"]}
{"id": "C46", "title": "Predefined point groups", "statement": "square(), cubic() and hexagonal() (with any combination of tr and ph) generate exactly the groups D4, Oh, D6/D6h times the requested time reversal and particle-hole factors: orders 8, 48, 12, 24 times 1, 2 or 4, and for square and cubic the R matrices are exactly all signed permutation matrices.", "quantifier": "all flag combinations", "why_tests_cant": "A statement about the full generated set, which is checked in the model exactly rather than in floating point.", "anchors": ["qsymm/groups.py:square", "qsymm/groups.py:cubic", "qsymm/groups.py:hexagonal", "qsymm/groups.py:generate_group"]}
{"id": "C47", "title": "Spin representation of hexagonal matches its rotations", "statement": "For hexagonal(spin=s), the unitary part of the sixfold rotation rotates the spin vector by the same R as the real space rotation: U^dagger S_i U = sum_j R_ij S_j, for both values of sympy_R.", "quantifier": "both representations of R, all spins", "why_tests_cant": "A covariance relation no test checks.", "anchors": ["qsymm/groups.py:hexagonal", "qsymm/groups.py:rotation", "qsymm/groups.py:spin_rotation"]}
{"id": "C48", "title": "symmetry_from_permutation represents the permutation", "statement": "For a valid permutation and unitary onsite blocks, symmetry_from_permutation returns a unitary U that maps the orbitals of every site a to the orbitals of its image perm[a]; malformed permutations and mismatched block sizes are rejected.", "quantifier": "all permutations, orbital numbers and onsite blocks", "why_tests_cant": "All permutations; involutive ones do not distinguish a permutation from its inverse.", "anchors": ["qsymm/groups.py:symmetry_from_permutation"]}
{"id": "C49", "title": "ContinuousGroupGenerator validates its rotation part", "statement": "ContinuousGroupGenerator(R, U) raises ValueError unless R is Hermitian and antisymmetric and U is Hermitian.", "quantifier": "all matrices R, U", "why_tests_cant": "All matrices; the failing ones satisfy one of two conditions.", "anchors": ["qsymm/groups.py:ContinuousGroupGenerator.__init__"]}
{"id": "C50", "title": "Continuous generators act as a derivation", "statement": "For a ContinuousGroupGenerator g, g.apply is real-linear on models, satisfies the Leibniz rule g.apply(A@B)=g.apply(A)@B+A@g.apply(B) on evaluation, preserves Hermiticity of H(k), and vanishes on multiples of the identity with no momentum dependence.", "quantifier": "all models polynomial in momenta, all Hermitian U and imaginary antisymmetric R", "why_tests_cant": "Identity of functions of momentum.", "anchors": ["qsymm/groups.py:ContinuousGroupGenerator.apply"]}
{"id": "C51", "title": "Random Hamiltonians have the documented symmetries", "statement": "gaussian(n, sym) returns a Hermitian matrix that satisfies the time reversal, particle-hole and chiral relations documented for the symmetry class, consistent with h_t_matrix and h_p_matrix, whatever random numbers are drawn; invalid n are rejected.", "quantifier": "all 10 symmetry classes, all n, all random draws", "why_tests_cant": "All draws of the random generator and all sizes.", "anchors": ["qsymm/kwant_rmt.py:gaussian", "qsymm/kwant_rmt.py:h_t_matrix", "qsymm/kwant_rmt.py:h_p_matrix", "qsymm/kwant_rmt.py:t", "qsymm/kwant_rmt.py:p", "qsymm/kwant_rmt.py:c"]}
{"id": "C52", "title": "Random scattering matrices have the documented symmetries", "statement": "circular(n, sym) returns a unitary matrix satisfying the relations documented for its symmetry class, for every unitary returned by the underlying QR step.", "quantifier": "all 10 symmetry classes, all n, all random draws", "why_tests_cant": "All draws and sizes.", "anchors": ["qsymm/kwant_rmt.py:circular"]}
{"id": "C53", "title": "split_list partitions sorted values", "statement": "split_list(vals, tol) returns consecutive index blocks that cover all indices exactly once in order, values in one block are consecutively within tol/len, different blocks are separated by more, and the spread inside a block is below tol.", "quantifier": "all non-empty sorted lists", "why_tests_cant": "All lengths and values.", "anchors": ["qsymm/linalg.py:split_list"]}
{"id": "C54", "title": "allclose is a tolerance relation", "statement": "allclose is reflexive and symmetric, arrays that are equal are close, and closeness bounds the entrywise difference by atol + rtol*max.", "quantifier": "all arrays and tolerances", "why_tests_cant": "All arrays.", "anchors": ["qsymm/linalg.py:allclose"]}
{"id": "C55", "title": "prop_to_id recognises multiples of the identity", "statement": "With exact comparison prop_to_id(A) returns (True, c) if and only if A = c*1.", "quantifier": "all square matrices", "why_tests_cant": "All matrices, including zero leading entry.", "anchors": ["qsymm/linalg.py:prop_to_id"]}
{"id": "C56", "title": "LLL returns a basis of the same lattice", "statement": "lll(basis) returns vectors related to the input by an integer matrix with integer inverse, independently of rounding errors in the Gram-Schmidt data, and any returned basis is c-reduced.", "quantifier": "all bases, all values of the auxiliary Gram-Schmidt coefficients, all iteration counts", "why_tests_cant": "Invariant of an unbounded loop.", "anchors": ["qsymm/kwant_linalg_lll.py:lll", "qsymm/kwant_linalg_lll.py:is_c_reduced"]}
{"id": "C57", "title": "cvp returns the closest lattice points", "statement": "cvp(vec, basis, n) returns n distinct lattice points such that no other lattice point is closer to vec than any of them.", "quantifier": "all linearly independent bases, all vectors, all n", "why_tests_cant": "The search box is finite while the lattice is infinite; a geometric bound is needed.", "anchors": ["qsymm/kwant_linalg_lll.py:cvp"]}
{"id": "C58", "title": "voronoi neighbours define the Voronoi cell and generate the lattice", "statement": "The lattice vectors returned by voronoi(basis, reduced=False) come in opposite pairs, are non-zero, a point is at least as close to the origin as to any lattice point if and only if it is at least as close to the origin as to each of the returned vectors, and they generate the lattice.", "quantifier": "all bases and all points", "why_tests_cant": "Infinitely many half spaces are replaced by finitely many.", "anchors": ["qsymm/kwant_linalg_lll.py:voronoi", "qsymm/kwant_linalg_lll.py:cvp"]}
{"id": "C59", "title": "bravais_point_group returns lattice symmetries", "statement": "Every element returned by bravais_point_group maps the lattice onto itself.", "quantifier": "all bases", "why_tests_cant": "All lattices.", "anchors": ["qsymm/symmetry_finder.py:bravais_point_group", "qsymm/symmetry_finder.py:check_bravais_symmetry", "qsymm/kwant_linalg_lll.py:voronoi"]}
{"id": "C60", "title": "Conserved quantities commute with the Hamiltonian", "statement": "The generators returned by conserved_quantities for a block decomposition are Hermitian, traceless, linearly independent together with the identity, commute with every matrix with that block structure, and number sum(d_i^2)-1.", "quantifier": "all block structures", "why_tests_cant": "All multiplicities and block sizes.", "anchors": ["qsymm/symmetry_finder.py:conserved_quantities"]}
{"id": "C61", "title": "Unitary assembled from blocks is a symmetry", "statement": "Given a bijective assignment of blocks with unitary intertwiners, the matrix assembled by the symmetry finder is unitary and intertwines the full Hamiltonians, for unitary and antiunitary elements.", "quantifier": "all block structures and intertwiners", "why_tests_cant": "Any number and size of blocks.", "anchors": ["qsymm/symmetry_finder.py:_construct_unitary", "qsymm/symmetry_finder.py:_find_unitary_blocks", "qsymm/symmetry_finder.py:_find_unitary"]}
{"id": "C62", "title": "Normalised square", "statement": "For a unitary block that squares to a multiple of one, the normalised block squares to one; for an antiunitary one the square is +1 or -1 and is left unchanged.", "quantifier": "all unitary blocks", "why_tests_cant": "All matrices.", "anchors": ["qsymm/symmetry_finder.py:_nice_square"]}
{"id": "C63", "title": "Greatest common divisor", "statement": "gcd(*args) with at least two arguments terminates and returns the non-negative greatest common divisor of all arguments.", "quantifier": "all integer argument lists of length at least two", "why_tests_cant": "All integers.", "anchors": ["qsymm/kwant_continuum.py:gcd"]}
{"id": "C64", "title": "sympify restores global converter state", "statement": "After every call of sympify, whether it returns or raises, the global sympy converter table is the same as before the call, also for nested calls through locals.", "quantifier": "all inputs, all points at which the call may raise, nested calls", "why_tests_cant": "Quantifies over exception points.", "anchors": ["qsymm/kwant_continuum.py:sympify"]}
{"id": "C65", "title": "sympify restores the converter table when called concurrently", "statement": "If two threads call sympify, the converter table after both have finished is the same as before.", "quantifier": "all interleavings of two calls", "why_tests_cant": "Schedules cannot be enumerated by unit tests.", "anchors": ["qsymm/kwant_continuum.py:sympify"]}
{"id": "C66", "title": "monomials decomposes an expression without loss", "statement": "monomials(expr, gens) returns coefficients such that the sum of key*coefficient equals expr, keys contain only generators and coefficients contain none.", "quantifier": "all polynomial expressions and generator sets", "why_tests_cant": "All expressions.", "anchors": ["qsymm/kwant_continuum.py:monomials", "qsymm/kwant_continuum.py:_expression_monomials"]}
{"id": "C67", "title": "Caching does not change results", "statement": "Memoised functions (lru_cache) return the same value as the undecorated function for every history of calls, provided the function gives equal results on arguments that compare equal.", "quantifier": "all call histories, cache sizes and arguments", "why_tests_cant": "Histories are unbounded.", "anchors": ["qsymm/groups.py:_mul", "qsymm/groups.py:_inv", "qsymm/groups.py:_eq", "qsymm/groups.py:_make_int", "qsymm/model.py:_symbol_normalizer", "qsymm/model.py:_bloch_normalizer"]}
{"id": "C68", "title": "Symbol normalisation is independent of call history", "statement": "The symbol under which a term is stored depends only on the key passed, not on which keys have been normalised before.", "quantifier": "all call histories", "why_tests_cant": "History dependent.", "anchors": ["qsymm/model.py:_symbol_normalizer", "qsymm/model.py:_bloch_normalizer"]}
{"id": "C69", "title": "Rotation angle and axis are recovered", "statement": "For every three dimensional rotation matrix the axis n and angle theta computed for printing satisfy R = rotation by theta about n.", "quantifier": "all rotation matrices", "why_tests_cant": "All axes, including those with vanishing component sum.", "anchors": ["qsymm/groups.py:rotation_to_angle", "qsymm/groups.py:pretty_print_pge"]}
{"id": "C70", "title": "Printed axis of a continuous rotation is parallel to the rotation axis", "statement": "The axis printed for a ContinuousGroupGenerator in three dimensions is parallel to the axis of its R.", "quantifier": "all axes", "why_tests_cant": "All axes.", "anchors": ["qsymm/groups.py:pretty_print_cgg", "qsymm/groups.py:_round_axis"]}
{"id": "C71", "title": "Every generator can be printed", "statement": "str() of any valid ContinuousGroupGenerator or PointGroupElement returns a string (never raises).", "quantifier": "all elements, with U None or zero, all space dimensions", "why_tests_cant": "All elements.", "anchors": ["qsymm/groups.py:pretty_print_cgg", "qsymm/groups.py:pretty_print_pge"]}
{"id": "C72", "title": "Version strings", "statement": "pep440_format renders (release, dev, labels) such that no local label is lost and the dev part is appended exactly when it is set; the archive fallback selects the version tag that is smallest in the order of strings (so that a release wins against its own release candidates) and otherwise reports the hash.", "quantifier": "all versions and ref name strings", "why_tests_cant": "All strings.", "anchors": ["qsymm/_version.py:pep440_format", "qsymm/_version.py:get_version_from_git_archive"]}
{"id": "C73", "title": "tocsr and toarray preserve the model", "statement": "m.tocsr() and m.toarray() have the same evaluation as m for every supported value format.", "quantifier": "all models and formats (scalar, ndarray, sparse, LinearOperator)", "why_tests_cant": "All formats and models.", "anchors": ["qsymm/model.py:Model.tocsr", "qsymm/model.py:Model.toarray"]}
{"id": "C74", "title": "subs keeps momenta consistent", "statement": "After m.subs(...) the momenta of the result are exactly the momenta of m with replaced symbols renamed and numerically replaced ones removed, as documented, for sequential substitution lists.", "quantifier": "all momenta tuples and substitution lists", "why_tests_cant": "All substitution sequences.", "anchors": ["qsymm/model.py:Model.subs"]}
{"id": "C75", "title": "continuum_pairing returns models in the requested momenta", "statement": "Every model returned by continuum_pairing(symmetries, dim, ..., momenta) has momenta equal to the first dim of the requested momenta.", "quantifier": "all dims and momenta", "why_tests_cant": "All inputs.", "anchors": ["qsymm/hamiltonian_generator.py:continuum_pairing"]}
{"id": "C76", "title": "continuum_pairing pairing blocks are complete", "statement": "The BdG family built by continuum_pairing satisfies particle-hole symmetry with the declared square, and the pairing blocks satisfy Delta(k) = -/+ Delta(-k)^T accordingly.", "quantifier": "all inputs", "why_tests_cant": "All inputs.", "anchors": ["qsymm/hamiltonian_generator.py:continuum_pairing"]}
{"id": "C77", "title": "simult_diag diagonalises every commuting normal family", "statement": "For non-empty families of commuting normal matrices whose distinct eigenvalues differ by more than tol, simult_diag returns blocks of orthonormal columns that together form a unitary matrix, on each of which every matrix is a multiple of the identity, different blocks being told apart by one of the matrices; a normal family that does not commute raises ValueError.", "quantifier": "all finite families of normal matrices of any size, for any correct eigensolver", "why_tests_cant": "Recursion over families of any size.", "anchors": ["qsymm/linalg.py:simult_diag", "qsymm/linalg.py:split_list"]}
{"id": "C78", "title": "Killing form and Casimir are invariant", "statement": "For matrices closed under commutation with the structure constants returned by struct_const, the Killing form is symmetric and invariant, and the Casimir operator commutes with every generator.", "quantifier": "all matrix Lie algebras with non-degenerate Killing form", "why_tests_cant": "All algebras.", "anchors": ["qsymm/symmetry_finder.py:struct_const", "qsymm/symmetry_finder.py:killing", "qsymm/symmetry_finder.py:casimir"]}
{"id": "C79", "title": "Integer inverse", "statement": "_inv_int(A) returns the exact integer inverse for every integer matrix with determinant +-1 and rejects the others.", "quantifier": "all integer matrices", "why_tests_cant": "All matrices.", "anchors": ["qsymm/linalg.py:_inv_int", "qsymm/groups.py:_inv"]}
{"id": "C80", "title": "Mirrors and planar rotations are orthogonal and compose", "statement": "mirror(axis) is an orthogonal involution of determinant -1 that reverses axis and fixes its complement; planar rotations compose by adding angles; inversion commutes with everything; the Altland-Zirnbauer factories satisfy chiral = time_reversal*particle_hole.", "quantifier": "all axes and angles", "why_tests_cant": "All axes and angles.", "anchors": ["qsymm/groups.py:mirror", "qsymm/groups.py:rotation", "qsymm/groups.py:inversion", "qsymm/groups.py:time_reversal", "qsymm/groups.py:particle_hole", "qsymm/groups.py:chiral"]}
{"id": "C81", "title": "Text keys and symbols address the same term", "statement": "After m['x'] = v, reading m[sympy.Symbol('x')] returns v: assigning through a text key and through the symbol it denotes are the same operation, as they are for reading.", "quantifier": "all models, keys and values", "why_tests_cant": "A test would have to know that only reading normalises keys.", "anchors": ["qsymm/model.py:Model.__setitem__", "qsymm/model.py:Model.__getitem__"]}
{"id": "C82", "title": "Declared shape and format are enforced", "statement": "A Model built from a dictionary has all values of its own shape and format; an explicit shape argument that differs from the shape of the values is rejected.", "quantifier": "all dictionaries, shapes and formats", "why_tests_cant": "All combinations of given and inferred shape and format.", "anchors": ["qsymm/model.py:Model.__init__", "qsymm/model.py:_shape_and_format"]}
{"id": "C83", "title": "A missing unitary means the identity everywhere", "statement": "A PointGroupElement with U=None acts on a Model exactly as one with U equal to the identity, and the same holds for the products and inverses formed from it.", "quantifier": "all elements, models and products", "why_tests_cant": "Single calls of apply hide what happens after multiplication.", "anchors": ["qsymm/groups.py:PointGroupElement.__mul__", "qsymm/groups.py:PointGroupElement.apply"]}
{"id": "C86", "title": "spin_matrices rejects spins that are neither integer nor half-integer", "statement": "spin_matrices(s) raises an exception for every s for which 2s is not an integer, so that every returned triple satisfies the angular momentum algebra.", "quantifier": "all real s >= 0", "why_tests_cant": "Tests only pass valid spins; the assertion guarding the argument can never fail.", "anchors": ["qsymm/groups.py:spin_matrices"]}
{"id": "C87", "title": "Particle-hole symmetry and spin exclude each other", "statement": "square, cubic and hexagonal raise ValueError when spin is provided while ph=True, as their documentation says, because the unitary part of the particle-hole operator cannot be deduced from spin.", "quantifier": "all spin representations and all other options", "why_tests_cant": "The missing check in one of three functions is invisible to tests of the returned groups.", "anchors": ["qsymm/groups.py:square", "qsymm/groups.py:cubic", "qsymm/groups.py:hexagonal"]}
{"id": "C88", "title": "Reduced Voronoi vectors are a minimal description of the cell", "statement": "voronoi(basis, reduced=True) returns non-zero vectors in opposite pairs such that the half spaces of these vectors still define the Voronoi cell, the vectors still generate the lattice, and no pair can be left out.", "quantifier": "all linearly independent bases, all tolerances", "why_tests_cant": "The cell is an intersection of infinitely many half spaces and the vectors are discarded one after the other.", "anchors": ["qsymm/kwant_linalg_lll.py:voronoi"]}
{"id": "C89", "title": "bravais_point_group returns the full point group", "statement": "Every orthogonal matrix that maps the lattice onto itself occurs as the rotation part of an element returned by bravais_point_group.", "quantifier": "all bases", "why_tests_cant": "Whether a symmetry is missed depends on the shape of the lattice compared with the tolerance of voronoi; tests use a few lattices of ordinary shape.", "anchors": ["qsymm/symmetry_finder.py:bravais_point_group", "qsymm/symmetry_finder.py:bravais_group_2d", "qsymm/kwant_linalg_lll.py:voronoi"]}
{"id": "C90", "title": "separate_lie_algebra finds the centre", "statement": "For linearly independent Hermitian generators closed under commutation, the first component returned by separate_lie_algebra is a basis of the centre of the algebra, and both components together are a basis of the algebra, when no non-zero singular value of the Killing form is within the tolerance of nullspace.", "quantifier": "all closed families of Hermitian generators of any number and size", "why_tests_cant": "All algebras.", "anchors": ["qsymm/symmetry_finder.py:separate_lie_algebra"]}
{"id": "C91", "title": "struct_const checks closure", "statement": "For linearly independent generators, struct_const returns if and only if all commutators are linear combinations of the generators, and otherwise raises ValueError, including the case in which the generators span all matrices and lstsq returns no residual.", "quantifier": "all linearly independent families", "why_tests_cant": "All families of generators.", "anchors": ["qsymm/symmetry_finder.py:struct_const"]}
{"id": "C92", "title": "The second component of separate_lie_algebra is the semisimple part", "statement": "The second component returned by separate_lie_algebra is closed under commutation, contains all commutators of the algebra and has a trivial centre.", "quantifier": "all closed families of Hermitian generators", "why_tests_cant": "All algebras.", "anchors": ["qsymm/symmetry_finder.py:separate_lie_algebra"]}
{"id": "C93", "title": "The version is taken from git only in the project's own repository", "statement": "With __use_git__, get_version reports git describe and the state of the work tree only if the top level of the git repository is the directory of the distribution, preferring tags found along first parents; in another repository, without git and without tags it reports the archive information or unknown; a static version is returned as it is.", "quantifier": "all outcomes of the git commands, all ref names, all static versions", "why_tests_cant": "A wrong version is reported only when the package is copied into another repository.", "anchors": ["qsymm/_version.py:get_version", "qsymm/_version.py:get_version_from_git"]}
{"id": "C94", "title": "continuous_symmetries finds exactly the continuous rotation symmetries", "statement": "For a Model in two or more dimensions whose reduced blocks all have size two or more, continuous_symmetries raises nothing and returns linearly independent generators (R, L) that annihilate the Hamiltonian at all values of the symbols; they span, over the reals, all symmetries whose L acts by a traceless hermitian matrix on each reduced block and equally on all its copies, and every symmetry (R, L) with hermitian L agrees with one of these up to an L that commutes with the Hamiltonian. In fewer dimensions the list is empty.", "quantifier": "all Models, all numbers and sizes of blocks, all dimensions", "why_tests_cant": "All Hamiltonians; tests only try a few with a single block of size two.", "anchors": ["qsymm/symmetry_finder.py:continuous_symmetries", "qsymm/symmetry_finder.py:_reduced_model"]}
{"id": "C95", "title": "continuous_symmetries accepts every Model", "statement": "continuous_symmetries returns a list of generators for every non-empty Model, including Models with reduced blocks of size one such as a single band k_x**2 + k_y**2, for which the code has a branch of its own (There is no action in a 1D block).", "quantifier": "all Models", "why_tests_cant": "Tests have no reduced block of size one.", "anchors": ["qsymm/symmetry_finder.py:continuous_symmetries", "qsymm/linalg.py:family_to_vectors", "qsymm/linalg.py:matrix_basis"]}
{"id": "C96", "title": "The name of a group element means the element", "statement": "For every PointGroupElement with orthogonal R in one or two dimensions, and in three dimensions when R is symmetric or the components of its axis do not add up to zero, str() gives a name whose meaning is R: 1 for the identity and nothing else, I for the inversion, R(t) for the rotation of the plane by t, M(u) for the reflection along u, R(t, u) and S(t, u) for the rotation by t about u and minus it (u shown after rounding; in three dimensions an axis with zero sum is shown as nan). The letters T, P, C give the two flags, and leaving out the 1 before them loses nothing.", "quantifier": "all orthogonal R, both flags; any arctan2 and eigh with their documented behaviour, which is shown to be possible", "why_tests_cant": "Tests compare a handful of strings.", "anchors": ["qsymm/groups.py:pretty_print_pge", "qsymm/groups.py:rotation_to_angle", "qsymm/groups.py:_round_axis"]}
{"id": "C97", "title": "symmetry_adapted_sun finds the tensor product structure", "statement": "If the real combinations of the independent generators gens are, in some orthonormal basis of d groups of n vectors, exactly the matrices L (x) 1 with L Hermitian and traceless (n copies of su(d)), then whatever symmetry_adapted_sun(gens) returns is d matrices of shape (nd, n) whose columns together are an orthonormal basis, and the real combinations of gens are exactly einsum(Ps, L, Ps*) for traceless Hermitian L. It raises nothing but ValueError, and with exact comparisons and d > 1 it never raises.", "quantifier": "all d, n, all bases gens of all such representations, all eigh and svd meeting their contracts, all tolerances", "why_tests_cant": "The test draws random representations of small d and n; degenerate eigenvalues of single generators, where the splitting loop does its work, are not drawn.", "anchors": ["qsymm/symmetry_finder.py:symmetry_adapted_sun"]}
{"id": "C98", "title": "_reduce_hamiltonian finds all unitary symmetries and irreducible blocks", "statement": "For every nonempty family H of matrices whose adjoints are linear combinations of it (such as the coefficients of a Hermitian Model), what _reduce_hamiltonian(H) returns is an orthonormal basis, grouped into arrays P_i of shape (d_i, N, n_i) with sum d_i n_i = N, such that a matrix commutes with all of H exactly if it is a sum of einsum('aij,ab,bkj->ik', P_i, L_i, conj(P_i)) with arbitrary d_i x d_i matrices L_i. Consequently every member of H is block diagonal in this basis with equal blocks within one array, the blocks of one array are irreducible, and those of different arrays are not equivalent. Only ValueError can be raised, and nothing is raised if the comparisons are exact. For an arbitrary family the same holds with the adjoints added to it.", "quantifier": "all sizes and all finite families of matrices whose central symmetries have eigenvalues further apart than the tolerance; all library calls meeting their contracts", "why_tests_cant": "Tests check the block structure of a few random examples; completeness of the symmetries, irreducibility and inequivalence of blocks are not tested.", "anchors": ["qsymm/symmetry_finder.py:_reduce_hamiltonian", "qsymm/symmetry_finder.py:symmetry_adapted_sun", "qsymm/symmetry_finder.py:separate_lie_algebra"]}
{"id": "C99", "title": "_find_unitary decides whether there is a unitary", "statement": "If the blocks of the projectors Ps are irreducible and blocks of different arrays are inequivalent, _find_unitary raises nothing; if it attaches U to the group element, U is unitary and maps every coefficient of the transformed Hamiltonian to that of the original; if it returns None for the unitary part, no invertible matrix does this. In particular looking only at combinations of one block per array, the search order, skipping of pairs of blocks by size and eigenvalues, and the factors of _nice_square lose no symmetry.", "quantifier": "all numbers and sizes of blocks, all multiplicities, unitary and antiunitary, symmetries and antisymmetries", "why_tests_cant": "Tests only see models that have the symmetry and check the unitary found; that None is never returned wrongly is not testable by examples.", "anchors": ["qsymm/symmetry_finder.py:_find_unitary", "qsymm/symmetry_finder.py:_find_unitary_blocks", "qsymm/symmetry_finder.py:_construct_unitary", "qsymm/symmetry_finder.py:_nice_square"]}
{"id": "C100", "title": "Reduction, conserved quantities and search for unitaries fit together", "statement": "With Ps = _reduce_hamiltonian(H): conserved_quantities(Ps) is a real basis of all traceless Hermitian matrices commuting with every member of H, of which there are (sum of d_i^2) - 1; and _find_unitary called with these Ps returns a unitary exactly if there is an invertible matrix that maps the transformed coefficients to the original ones.", "quantifier": "all families H, all sizes; any library calls meeting their contracts", "why_tests_cant": "Tests check particular models; nothing shows that no conserved quantity and no symmetry is missed.", "anchors": ["qsymm/symmetry_finder.py:symmetries", "qsymm/symmetry_finder.py:conserved_quantities", "qsymm/symmetry_finder.py:_reduce_hamiltonian", "qsymm/symmetry_finder.py:_find_unitary"]}
{"id": "C101", "title": "symmetries finds exactly the symmetries among the candidates", "statement": "For every Hermitian Model or BlochModel that is not zero: _find_unitary(model, Ps, g) with Ps = _reduce_hamiltonian(model.values()) attaches a unitary U to g with which g.apply(model) has the same coefficients as model, and if it attaches none, there is no such U. symmetries(model, candidates) therefore returns a group in which a candidate occurs exactly if it is a symmetry; every element returned carries a U with which it leaves the model invariant; the group consists of products of the generators returned with generators=True, and of products of symmetric candidates. Without candidates the result consists of those of the identity, time reversal, particle-hole and chiral symmetry which are symmetries. The conserved quantities returned are a basis of the traceless Hermitian matrices commuting with all coefficients; with continuous_rotations=True they are followed by a basis of the rotation generators, and every continuous rotation symmetry is a combination of these up to a conserved quantity.", "quantifier": "all Hermitian Models and BlochModels with a non-zero coefficient, all dimensions and sizes, all finite sets of invertible candidates without U that generate a finite group; all orders of sets; all library calls meeting their contracts", "why_tests_cant": "The tests look at a dozen models whose symmetry groups are known. That nothing is found wrongly and that nothing is missed for any model is not testable.", "anchors": ["qsymm/symmetry_finder.py:symmetries", "qsymm/symmetry_finder.py:discrete_symmetries", "qsymm/symmetry_finder.py:_find_unitary", "qsymm/symmetry_finder.py:continuous_symmetries", "qsymm/symmetry_finder.py:conserved_quantities", "qsymm/model.py:Model.eliminate_zeros"]}
{"id": "C102", "title": "Symmetries of a Hamiltonian that is zero", "statement": "Every candidate is a symmetry of a Model all of whose coefficients are zero, and _find_unitary returns it with some unitary.", "quantifier": "all Models with zero coefficients, all candidates without U", "why_tests_cant": "The tests contain no model that vanishes.", "anchors": ["qsymm/symmetry_finder.py:_find_unitary", "qsymm/symmetry_finder.py:_find_unitary_blocks", "qsymm/linalg.py:solve_mat_eqn"]}
{"id": "C103", "title": "bravais_point_group finds the point group of every planar lattice", "statement": "For two linearly independent periods in the plane, in exact arithmetic and without the tolerance of voronoi, bravais_point_group never raises and returns every orthogonal matrix that maps the lattice onto itself and no other, each once, combined with the requested time reversal and particle-hole flags; with generators=True the elements that are returned generate this group.", "quantifier": "all lattices in two dimensions (all five Bravais types), all choices of the basis, tr, ph, generators", "why_tests_cant": "A test can compare the order of the group for a handful of lattices with hand-picked bases; it cannot enumerate all lattices nor show that no symmetry is missing.", "anchors": ["qsymm/symmetry_finder.py:bravais_point_group", "qsymm/symmetry_finder.py:bravais_group_2d", "qsymm/symmetry_finder.py:equals", "qsymm/symmetry_finder.py:check_bravais_symmetry", "qsymm/kwant_linalg_lll.py:voronoi"]}
{"id": "C104", "title": "lll terminates for every basis when c > 4/3", "statement": "For linearly independent vectors and c larger than 4/3 the loop of lll ends after finitely many steps and lll returns a c-reduced basis of the same lattice without raising, although the coefficients of the later rows are not size-reduced after an exchange. The bound is sharp: for c <= 4/3 lll never returns for the triangular lattice.", "quantifier": "all numbers of vectors and dimensions, all bases, all c > 4/3, all rounding functions to a nearest integer", "why_tests_cant": "Termination of an unbounded loop that goes back and forth; a test that hangs or not decides it for one basis only, and floating point noise hides the non-terminating case.", "anchors": ["qsymm/kwant_linalg_lll.py:lll", "qsymm/kwant_linalg_lll.py:is_c_reduced", "qsymm/symmetry_finder.py:bravais_point_group"]}
{"id": "C105", "title": "bravais_point_group finds the point group of three-dimensional lattices", "statement": "For three linearly independent periods in space, in exact arithmetic and without the tolerance of voronoi, whenever bravais_point_group returns, it returns every orthogonal matrix that maps the lattice onto itself and no other, each once, combined with the requested time reversal and particle-hole flags; with generators=True the elements that are returned generate this group. In particular none of the branches of bravais_group_3d, which look only at the numbers of equivalent Voronoi vectors, misses a symmetry, and the axes that threefold_axis and twofold_axis find first are enough. It does return for every basis of a lattice that has an orthogonal basis, or a basis of which one vector is perpendicular to the other two, when lll is called with c > 4/3; the half turn about the perpendicular vector is then among the elements.", "quantifier": "all lattices in three dimensions for which it returns, all choices of the basis, tr, ph, generators", "why_tests_cant": "A test can compare the order of the group for one lattice of each Bravais type; it cannot enumerate the lattices for which accidental lengths lead to a branch that was written for another type, nor show that no symmetry is missing.", "anchors": ["qsymm/symmetry_finder.py:bravais_point_group", "qsymm/symmetry_finder.py:bravais_group_3d", "qsymm/symmetry_finder.py:pick_perp", "qsymm/symmetry_finder.py:threefold_axis", "qsymm/symmetry_finder.py:twofold_axis", "qsymm/symmetry_finder.py:equals", "qsymm/symmetry_finder.py:check_bravais_symmetry", "qsymm/kwant_linalg_lll.py:voronoi"]}
{"id": "C106", "title": "bravais_point_group accepts every three-dimensional lattice", "statement": "For every three linearly independent periods in space bravais_point_group returns, it does not raise.", "quantifier": "all bases of three-dimensional lattices", "why_tests_cant": "Whether an exception is raised depends on the shape of the lattice compared with the tolerance of voronoi; tests use lattices with sides of comparable length.", "anchors": ["qsymm/symmetry_finder.py:bravais_point_group", "qsymm/symmetry_finder.py:bravais_group_3d", "qsymm/kwant_linalg_lll.py:voronoi", "qsymm/kwant_linalg_lll.py:lll"]}
{"id": "C107", "title": "bravais_point_group finds the half turns of every box", "statement": "For every primitive orthorhombic lattice the group that bravais_point_group returns contains the half turn about each side.", "quantifier": "all sides, also if two of them are much shorter than the third, and the tolerance of voronoi", "why_tests_cant": "No exception is raised and the group that is returned is a group of symmetries, it is only too small; tests use lattices with sides of comparable length.", "anchors": ["qsymm/symmetry_finder.py:bravais_point_group", "qsymm/symmetry_finder.py:bravais_group_3d", "qsymm/kwant_linalg_lll.py:voronoi", "qsymm/kwant_linalg_lll.py:lll"]}
