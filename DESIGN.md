# Formal model of qsymm: design

`MANIFEST.json` is the authoritative map from property to theorem,
`properties.jsonl` states the properties, `seeded/LOG.jsonl` records the wrong
programs against which the theorems were tested.

## 1. How the code is modelled

* **Language.** Gallina functions that mirror the Python functions branch by
  branch.  Exceptions are values (`Err e` in the result type `res`, see
  `Prelude.v`).  Loops are structural recursion where the bound is visible in the
  code, and recursion with fuel where it is not.  In the second case a theorem
  says when the fuel suffices, or the claim says that it is about runs that return.
* **Numbers.** Floating point numbers are replaced by an arbitrary real closed
  field `F` (mathcomp `rcfType`) and complex numbers by `F[i]`.  Algorithms that
  only need ordered-field operations are stated over weaker structures.  Every
  theorem quantifies over the field.  Tolerances (`rtol`, `atol`, `tol`) stay
  parameters wherever the branch they guard matters.  Rounding errors of the
  arithmetic are not modelled; explicit calls of `np.round` are.
* **Library calls.** They are parameters ("oracles") with their documented
  specification as an explicit hypothesis; section 4 lists all of them.
* **Python objects.** dict = association list in insertion order with unique
  keys; set = list without duplicates modulo the (Boolean) `__eq__` of the
  elements, enumerated in an arbitrary order; lru_cache = explicit state.
* **Statements.** Properties are stated through evaluation of Models, spans of
  lists of vectors, groups generated by words, and so on, never through the
  helper that computes the result.  Every claim has an `Example` next to it.
* **False properties.** A property that the code violates is kept, its theorem
  ends in `_refuted` and contains the witness; the claim is then "partial", its
  note starts with REFUTED, and the strongest true restriction is proved too.

## 2. Files

Model files (definitions with the lines of /repo they mirror) and the files that
prove the properties about them:

| source | model | proofs | properties |
|---|---|---|---|
| groups.py `PointGroupElement` 95-299 | PGE, PGERep | PGEProofs, PGEGroup, PropGroups, PropRep | C01, C09-C11, C83 |
| groups.py `generate_group`, `generate_subgroups` 580-664; symmetry_finder.py loop of `discrete_symmetries` 373-458 | PySet, GroupGen | GroupGenProofs, SubgroupProofs, DiscSymProofs, StrictGroup | C04-C08 |
| groups.py factories 303-509, `square`, `cubic`, `hexagonal` 669-855 | Factories | PropFactories, PointGroups, PropPointGroups, PropHexagonal | C46, C47, C80, C87 |
| groups.py `ContinuousGroupGenerator` 513-575 | Keys | PropCGG | C49, C50 |
| groups.py printing 860-1120 | Printing | PropPrinting, PropNames | C69-C71, C96 |
| groups.py `spin_matrices`, `spin_rotation`, `L_matrices` 1122-1237 | Spin | LMatrices, PropSpin | C44, C45, C47, C86 |
| groups.py `symmetry_from_permutation` 1241-1289 | PermSym | PropPermSym | C48 |
| groups.py, model.py lru_cache | Cache | PropCache | C67, C68 |
| model.py `Model`, `BlochModel`, `BlochCoeff` | ModelCore, ModelShape, Keys, ModelSubs | ModelProofs, KeysProofs, PropModel, PropShape, PropApply, PropSubs | C02, C03, C12-C22, C73, C74, C81, C82 |
| linalg.py `allclose`, `split_list`, `prop_to_id`, `_inv_int` | Tolerance | PropTol | C20, C21, C53-C55, C79 |
| linalg.py `matrix_basis`, `solve_mat_eqn` | Linalg | MatBasisProofs, PropLinalg | C23-C25 |
| linalg.py `nullspace` | Nullspace | PropNull, SparseProofs | C26-C28 |
| linalg.py `rref` | Rref | PropRref | C29, C30 |
| linalg.py `simult_diag` | SimultDiag | PropSimult | C77 |
| (contracts of library calls) | Oracles | PropOracles | C26, C28, C52, C57, C77, C90 |
| linalg.py `family_to_vectors`; hamiltonian_generator.py `check_symmetry`, `constrain_family` | Family | FamilyProofs, FamilyOps, PropFamily, PropConstrain | C31-C33 |
| hamiltonian_generator.py `remove_duplicates`, `subtract_family`, `make_basis_pretty` | FamilyTools | Complement, PropFamilyTools, PropPretty | C38-C41 |
| hamiltonian_generator.py `continuum_hamiltonian`, `continuum_variables` | Continuum | GradedOps, PolyExt, PropContinuum | C34-C36 |
| hamiltonian_generator.py `continuum_pairing` | Pairing | PropPairing | C75, C76 |
| hamiltonian_generator.py `symmetrize_monomial`, `bloch_family` | Symmetrize | Average, PropSymmetrize, PropBloch, PropBlochSpan | C37, C42, C43 |
| symmetry_finder.py 328-368, 461-653 | SymBlocks | PropBlocks, PropConserved, PropFind | C60-C62, C99 |
| symmetry_finder.py 79-80, 490-533 (composition) | Symmetries | PropSymmetries | C100 |
| symmetry_finder.py `symmetries` 22-104, `discrete_symmetries` 373-458 and `_find_unitary` 461-533 on Models; model.py `eliminate_zeros` 708-725 | Discrete | ActionProofs, PropDiscrete, PropDriver | C101, C102 |
| symmetry_finder.py 107-167 | Lie | PropLie | C78, C90-C92 |
| symmetry_finder.py 169-325 | Sun | StarAlg, PropSun, PropReduce | C97, C98 |
| symmetry_finder.py 657-787 | ContSym | PropContSym | C94, C95 |
| symmetry_finder.py 790-886, 998-1017, 1071-1080 | Bravais | PropBravais, PropBravais2 | C59, C89, C103 |
| symmetry_finder.py 889-995, 1020-1068 | Bravais3 | Space3, Branch3, Rhomb3, Mono3, Lattice3, PropBravais3, PropThin3, PropRod3, PropPrism3 | C105-C107 |
| (concrete cases only) | | Cases | C03, C07, C31, C45, C54, C62, C91 |
| kwant_linalg_lll.py | LLL, CVP | PropLLL, PropLLL2, PropCVP, PropVoronoi | C56-C58, C88, C104 |
| kwant_rmt.py | Rmt | PropRmt, PropCircular | C51, C52 |
| kwant_continuum.py `gcd`, converter table of `sympify`, `monomials` | KwantContinuum | PropKwantContinuum | C63-C66 |
| _version.py | Version | PropVersion | C72 |

`Prelude`, `LinSpan`, `NullSpec`, `Star`, `RealLemmas`, `RingTac`, `GroupSpec` are
shared vocabulary: results, spans and bases, exact null spaces, real and complex
arrays at once, inequalities, the `ring` and `field` tactics of the standard
library for mathcomp structures, and what it means to be a generated group.

## 3. Simplifications, by file

* `PGE`: `R` is an exact matrix; the three Python representations (integer,
  float, sympy) are modelled separately in `PGERep`, where hash, order and
  tolerance comparison live.  `U` is optional as in the code.
* `Keys`: a key is a product of powers of the momenta and parameters times a
  phase `exp(i k.x)`; `exp` is any function with the exponential laws.  sympy
  expressions that are not of this form are not modelled.
* `ModelCore`: values live in any module; `ModelShape` models dynamic types and
  shapes.  `lambdify`, `tosympy`, `evalf`, `reshape` and pretty printing are not
  modelled.
* `Tolerance`: `np.allclose` and the Frobenius norm are exact functions.
* `Linalg`, `Family`, `Continuum`, `Pairing`, `Symmetrize`: the null space is exact.
  `bloch_family` is modelled with rounding as a parameter.
* `Nullspace`: the dense and the sparse branch with SVD, `eigsh` and QR contracts.
* `Factories`: `cos` and `sin` enter through addition formulas, and through their
  values at the five angles used by `hexagonal`; `expm` is replaced by the closed
  form of a rotation about an axis.
* `Cache`: an association list with eviction; tinyarray equality ignores the
  dtype, which is what makes `C67_raw_refuted` and `C68_history_refuted` possible.
* `LLL`, `CVP`: exact arithmetic; `np.round` is any nearest-integer function;
  loops are fuelled.  `lll` terminates for c > 4/3 (C104); `cvp` terminates.
* `Bravais`, `Bravais3`: exact comparisons; the tolerance of `voronoi` is a parameter (0 in C103 and C105).
  A rotation about the zero vector is the identity instead of a division by zero; this case does not arise for the vectors that `voronoi` keeps: no two are parallel,
  and three vectors of equal length with a vanishing signed sum have overlaps 1/2, which `threefold_axis` treats before it adds them.
  That `bravais_group_3d` never raises its final error is not proved.
* `Rmt`: the draws are arbitrary matrices; distributions are not modelled.
* `SymBlocks`: exact comparisons; `np.isclose(det, 0)` is failure of
  invertibility; assertions are errors.
* `ContSym`: the projectors are given (`_reduce_hamiltonian` is in `Sun`); nullspace and sparse_basis are one exact oracle; the assertion is an
  exact comparison.  A BlochModel is sent back with [] before anything is done.
* `Lie`: exact comparisons; `lstsq` returns a solution when there is one.
* `Sun`: `check=False`; an integer test of `np.sqrt` is exact; `sparse=False`.
* `Symmetries`: eigenvalues of blocks are compared exactly; `k_max` has no effect with `sparse=False`.
* `Discrete`: `eliminate_zeros` removes exactly the zero values; an exception of `_find_unitary` inside
  `discrete_symmetries` is not represented (C101 shows there is none unless the model is zero, C102); sorting
  of the result is any function; `prettify=False`; the type check of `model.format` is left out.
* `SimultDiag`: `checks=0`; `allclose` comparisons are exact.
* `KwantContinuum`: expressions arrive as lists of terms.
* `Version`: git and the file system enter through their outputs.

Not modelled at all: `lambdify`, `tosympy`, LaTeX output, warnings, performance, sparse storage,
sympy's simplification, and floating point rounding.

## 4. Trusted base

* The kernel of Coq 8.16.1.
* `Print Assumptions` says "Closed under the global context" for each of the
  433 theorems named in the manifest: no axiom, not even from the standard
  library.  `coqchk` additionally lists constants of sealed modules of mathcomp
  (for example `mathcomp.ssreflect.fintype.Finite.EnumDef.enum`).  They have
  definitions and are not assumptions; sealing makes `coqchk` print them.
* The correspondence between the definitions and the Python source, which is by
  reading.  Each definition cites the lines it mirrors.
* The contracts of library calls, which are hypotheses of the theorems:

| call | contract | used by |
|---|---|---|
| `la.svd` | unitary factors, non-negative singular values, product | C26, C27, C90, C97, C98, C100, C101 |
| `eigsh` | the k smallest eigenpairs for 0 < k < n, ValueError for k = 0 | C28 |
| `la.eigh` | unitary, sorted real eigenvalues | C28, C69, C77, C96-C98, C100, C101 |
| `la.eig` of a normal matrix | invertible eigenvector matrix | C77 |
| `la.qr` | unitary times upper triangular, or the same span | C28, C52, C77 |
| `nullspace` | an exact basis of the kernel (met by `ker_rows`) | C24, C32, C35, C42, C76, C94, C98, C100, C101 |
| its complement | orthonormal basis of the row space (met by `gram_schmidt`) | C38, C40 |
| `la.lstsq` | an exact solution when there is one | C78, C90, C91 |
| `np.round` | a nearest integer | C56-C58 |
| `np.argsort` | a sorting permutation, not stable | C57, C58, C77 |
| `connected_components` | equal labels exactly for connected points | C77 |
| `arctan2`, `cos`, `sin`, `exp` | the functional equations used | C02, C46, C69, C80 |
| random draws | none | C51, C52 |
| git, file system | none | C72 |

`PropOracles` proves that these contracts can be met, so that the theorems are not
vacuous: singular value decompositions, sorted eigendecompositions and QR
decompositions exist for all real and complex matrices (from a Householder
completion and a Schur decomposition), and so do labels of components, sorting
permutations and least squares solutions.  A nearest integer exists for every
number only over an archimedean field; theorems with `np.round` say nothing about
other ordered fields.  What C96 asks of `arctan2` and `eigh` can be met
(`C96_contract`, `C96_eigh`); the functional equations of `exp`, `cos` and `sin` are
not shown to have a solution for every real closed field.

## 5. Properties, in short

| id | status | property | scope or finding |
|---|---|---|---|
| C01 | proved | Point group elements form a group | Over any real closed field; all flags, dimensions, integer exponents. |
| C02 | proved | apply is a left group action on Hamiltonians | For all monomial-times-phase keys; exp(i x) is any function with the exponential laws. Multiplicativity requires U given on both factors (or on neither), see C83. |
| C03 | proved | apply preserves Hermiticity and ignores the phase of U |  |
| C04 | proved | generate_group returns exactly the generated group | For every associative multiplication with a decidable congruence, every iteration order of Python sets; instantiated to PointGroupElements in both comparison modes. |
| C05 | partial | generate_group returns a group for every generator set | REFUTED for the empty generator set (returns the empty set); proved for every non-empty generator set. |
| C06 | proved | generate_subgroups is sound and complete |  |
| C07 | proved | generate_subgroups finds minimal generator sets |  |
| C08 | proved | discrete_symmetries pruning never changes the answer | The loop with the single-candidate test as a correct oracle, any candidate order. Boundary finding: empty candidate sets raise StopIteration. |
| C09 | proved | Ordering of point group elements is a strict total order with the identity first |  |
| C10 | partial | Equal point group elements hash equal | REFUTED: a sympy R and the equal floating point R compare equal but hash differently. Proved for R matrices both stored as integers or as rounded floats. |
| C100 | proved | Reduction, conserved quantities and search for unitaries fit together | Composition of C60, C98 and C99; hypotheses are those of C98 (hyp and library contracts) and that the transformed family spans the (conjugated) original one. without prettify; sparse=False. |
| C101 | proved | symmetries finds exactly the symmetries among the candidates | Composition of C02, C08, C60, C94, C98 and C99 for the driver. Exact comparisons; the hypothesis hyp of C98 on the gaps of eigenvalues; library contracts. C101_rotations needs two dimensions or more and no one-dimensional block (C95). prettify=False, sparse_linalg=False. |
| C102 | partial | Symmetries of a Hamiltonian that is zero | REFUTED: if all coefficients vanish, eliminate_zeros leaves no term and solve_mat_eqn reads HL[0] of an empty list, so _find_unitary raises IndexError for every candidate, although every candidate is a symmetry. |
| C103 | proved | bravais_point_group finds the point group of every planar lattice | Two dimensions, voronoi called with tolerance 0 (the code uses 1e-5, for which C89_complete_refuted is a counterexample). Exact arithmetic; the functions cos and sin have their values at 1/4 and 1/6 of a turn. It returns for c > 4/3 (C104). |
| C104 | proved | lll terminates for every basis when c > 4/3 | Exact arithmetic; the rounding is any function to a nearest integer, which makes the field archimedean. The proof follows the code, which leaves rows after the exchanged pair unreduced: an exchange can then make the vector longer, and the next one undoes it. C104_sharp: the documented condition c > 4/3 is needed, the code does not check it and loops forever. |
| C105 | proved | bravais_point_group finds the point group of three-dimensional lattices | Three dimensions, voronoi called with tolerance 0 (the code uses 1e-5). Exact arithmetic; the functions cos and sin have their values at 1/2, 1/3, 1/4 and 1/6 of a turn. That it returns is proved for the lattices with an orthogonal basis and for those with a basis of which one vector is perpendicular to the other two (C105_slab), that is the box lattices and the primitive monoclinic, the base centred orthorhombic and the hexagonal ones (given in any basis, c > 4/3, Examples C105_cubic and C105_hexagonal); not claimed: that bravais_group_3d recognises every other lattice, it may raise. |
| C106 | partial | bravais_point_group accepts every three-dimensional lattice | REFUTED: for the primitive orthorhombic lattice with sides e, 1 and 1, where e^2 <= 2 rtol and rtol < 1/4 is the tolerance of voronoi (the code uses 1e-5, so e = 4e-3 is enough, Example C106_numbers), voronoi keeps one pair of vectors and the test num_eq[-2] in bravais_group_3d raises IndexError. With tolerance 0 it returns for every lattice that has an orthogonal basis (C105_box), in particular for this one (C106_exact). |
| C107 | partial | bravais_point_group finds the half turns of every box | REFUTED: for the box with sides e, 2 e and 1, where 4 e^2 <= 2 rtol and rtol < 1/10 is the tolerance of voronoi (the code uses 1e-5, so e = 1e-3 is enough, Example C107_numbers), voronoi keeps the two short pairs only, which bravais_group_3d takes for a triclinic lattice: every element that is returned is the identity or the inversion, and the half turn about the first side, which is orthogonal and preserves the lattice, is missing. With tolerance 0 it is found (C107_exact), as all symmetries of every lattice are for which the function returns (C105_group). |
| C11 | partial | Equality of point group elements is an equivalence relation | REFUTED: transitivity fails for floating point R compared with a tolerance, and when elements with different _strict_eq flags are mixed. Reflexivity and symmetry hold always; transitivity holds for exact R. |
| C12 | proved | Model addition, negation and subtraction act pointwise | Values in any module over a commutative ring, any assignment of values to symbols. |
| C13 | proved | Model products act pointwise |  |
| C14 | proved | conj, T and trace of a Model act pointwise | Stated for models whose keys are symbolic (see C16 for how a raw key arises). |
| C15 | proved | Missing terms read as zero and reading does not insert them |  |
| C16 | partial | Adding a constant keeps a Model usable | REFUTED: adding a constant to a model without constant term stores the int 1 as key, and conj/transform_symbolic raise AttributeError. Proved: the evaluation is right, and models that already have a constant term stay usable. |
| C17 | partial | Model construction from a dictionary is additive | REFUTED: of several keys that normalise to the same symbol only the last is kept. Proved additive when normalised keys differ, and for the normalize=True pass. |
| C18 | proved | keep truncates products consistently |  |
| C19 | partial | keep survives every operation | REFUTED: addition ignores the keep set of the second operand, transform_symbolic (rotate_momenta, apply) loses it. Proved for negation, scaling, symbol products, maps of values, and addition of models with the same keep set. |
| C20 | partial | Model equality is symmetric | REFUTED: when the right operand is within tolerance of zero only the left operand is examined, so a == b and b == a can differ. Symmetric when both or neither model is within tolerance of zero; with zero tolerances equality is exact. |
| C21 | proved | eliminate_zeros, around and allclose are controlled by their tolerances |  |
| C22 | partial | Rotating momenta composes and commutes with evaluation | REFUTED for BlochModels and singular matrices (hoppings collide and terms are dropped); proved for Models with any matrix and for BlochModels with every invertible matrix, and tomodel commutes with all operations. |
| C23 | proved | matrix_basis is a basis of the requested space |  |
| C24 | proved | solve_mat_eqn returns all solutions | For a null space routine that returns an exact basis (such a routine exists: ker_rows_exact); matrices of dimension at least one. |
| C25 | partial | solve_mat_eqn handles conjugation for general matrices | REFUTED: for general matrices the code solves X HL = HR X^T instead of X HL = HR X^*, because the conjugate of a Hermitian basis matrix is its transpose and is extended linearly. Correct with hermitian=True. |
| C26 | proved | nullspace and its complement | For every decomposition that meets the contract of scipy.linalg.svd, real or complex. |
| C27 | partial | nullspace complement spans the row span | REFUTED for complex matrices: the complement spans the complex conjugates of the rows. Proved for real matrices. |
| C28 | partial | Sparse nullspace finds every null space of admissible dimension | REFUTED: with the default step size 15, null space dimension 12 is rejected, and dimension N-2 is always rejected. Proved exactly when the search succeeds and that a successful search returns an orthonormal basis of the null space. |
| C29 | proved | rref is a reduced row echelon form with its transformation | For positive tolerances; with rtol=0 the code can divide by zero (C29_zero_tolerance_refuted). Canonicity holds when the zero tests are exact. |
| C30 | partial | rref always honours return_S | REFUTED: a matrix close to zero takes an early return without S, and the documented relation m = S r is the wrong way round (r = S m holds, C29_rref). |
| C31 | proved | family_to_vectors is a faithful real-linear encoding | exact arithmetic; the key order is arbitrary |
| C32 | proved | constrain_family returns all symmetric combinations | relative to an exact nullspace routine (contract exact_nullspace, met by ker_rows); exact comparison |
| C33 | partial | constrain_family accepts every family | REFUTED: raises AssertionError when a key of the family is not produced by any rotated member (exp(ik) with inversion), ValueError without symmetries; C33_accepts_iff gives the exact condition |
| C34 | proved | continuum_variables enumerates monomials exactly | For every dimension >= 1. Listed powers must be distinct for 'once'; dim = 0 takes a separate branch that ignores the degree, see C36. |
| C35 | partial | continuum_hamiltonian is sound and complete | Sound and complete for every dim >= 1 (any mixture of discrete and continuous symmetries, any allowed powers, with an exact null space), and accepted whenever all powers are allowed. REFUTED for dim = 0: constants are returned for total_power=[1]. |
| C36 | partial | continuum_hamiltonian returns linearly independent terms in every dimension | REFUTED: with dim=0 the constants are returned once for every degree. Proved for dim >= 1 with distinct degrees and powers. |
| C37 | proved | symmetrize_monomial projects on the invariant subspace | For non-empty lists closed under multiplication and free of repetitions up to the phase of U. Two edge findings: the empty list raises ZeroDivisionError, and closure under the default comparison (which ignores U) is not enough. |
| C38 | proved | remove_duplicates keeps the span and removes dependence | exact arithmetic, relative to a nullspace routine whose second result is an orthonormal basis of the row space (exact_complement, met by gram_schmidt) |
| C39 | partial | make_basis_pretty keeps the span | REFUTED as stated: the result is rounded, so the span changes for every decimal rounding (witness 1 + sqrt(2) k). Proved before rounding, for every positive tolerance; members that vanish are never dropped. |
| C40 | proved | subtract_family returns a complement inside family1 | exact arithmetic, relative to exact_complement |
| C41 | partial | subtract_family removes the parallel components | REFUTED: subtracting {k1} from {k1, k1+k2} returns k1+k2. Proved when every member of family1 is in the span of family2 or orthogonal to it. |
| C42 | partial | bloch_family hopping terms are Hermitian and respect the selection | REFUTED: rounding the average breaks the invariance for every rounding that moves some multiple of the exact values, and without point group elements symmetrize=True raises ZeroDivisionError. Hermiticity before symmetrisation proved; invariance, completeness (every invariant combination of terms of the hoppings is in the span of the result) and independence proved with rounding replaced by the identity. |
| C43 | partial | Library calls do not modify their arguments | REFUTED: two elements that differ only in U compare equal before the call and different afterwards. |
| C44 | proved | spin_matrices satisfy angular momentum algebra | For every s with 2s a natural number, over any real closed field. |
| C45 | proved | L_matrices satisfy angular momentum algebra | The matrix exponential is not modelled: the planar rotation is stated with cos + sin J. |
| C46 | proved | Predefined point groups | for every enumeration order of the sets, every flag combination, with or without spin; exact arithmetic, the values of cosine and sine at the five angles used are hypotheses |
| C47 | partial | Spin representation of hexagonal matches its rotations | REFUTED for sympy_R=True (the default): R rotates by -60 degrees while U rotates the spin by +60 degrees, for every spin > 0. Proved for planar rotation(angle, spin) and for sympy_R=False. |
| C48 | partial | symmetry_from_permutation represents the permutation | REFUTED: the blocks are U[ranges[a], ranges[perm[a]]], so the orbitals of perm[a] are mapped to a, the inverse of the documented direction (visible whenever perm is not an involution). Unitarity, block structure and rejection of malformed arguments proved. |
| C49 | partial | ContinuousGroupGenerator validates its rotation part | REFUTED: a Hermitian R that is not antisymmetric is accepted (the code combines the two tests with `and`). Proved exactly which pairs are accepted. |
| C50 | proved | Continuous generators act as a derivation | For symbolic (non-Bloch) Models; BlochModels with R raise NotImplementedError. |
| C51 | proved | Random Hamiltonians have the documented symmetries | Exact arithmetic; the two random draws are arbitrary matrices, so the statement holds for every outcome of the generator. The distribution itself is not modelled. |
| C52 | proved | Random scattering matrices have the documented symmetries | Exact arithmetic. The QR step is any function that returns a unitary and an upper triangular factor of the prepared matrix, which is assumed invertible (true with probability one). C52_returns shows that the RuntimeError for symplectic matrices cannot occur. C52_charge_refuted records a defect outside the claim: circular(1, D, charge) raises IndexError when the draw has the wrong sign. The effect of charge in class DIII is not proved. |
| C53 | proved | split_list partitions sorted values |  |
| C54 | proved | allclose is a tolerance relation |  |
| C55 | proved | prop_to_id recognises multiples of the identity |  |
| C56 | proved | LLL returns a basis of the same lattice | The returned rows are a c-reduced basis of the same lattice and the transformation is unimodular, for every run that returns; C104 shows that it does for c > 4/3. The lattice part holds for any rounding and any Gram-Schmidt coefficients, the c-reduced part in exact arithmetic. The documented meaning of the second return value is wrong: the matrix returned is the transpose of the transformation from the original to the reduced basis. |
| C57 | partial | cvp returns the closest lattice points | REFUTED for n = 0: the code then looks at distances[-1] and never returns. For n >= 1 the search ends and returns the n closest points (n distinct points, sorted by distance, no other lattice point is closer); with group_by_length every returned list is exactly the points of the n shortest groups, but the search need not end: for the chain of integers and rtol >= 2 it loops for every n. Exact arithmetic; np.round and np.argsort are oracles with their contracts. |
| C58 | proved | voronoi neighbours define the Voronoi cell and generate the lattice | exact arithmetic; np.round and np.argsort are oracles with their contracts; independent basis vectors |
| C59 | partial | bravais_point_group returns lattice symmetries | Proved for one and two dimensions and every tolerance of voronoi, and for every dimension with tolerance 0. In three dimensions with the tolerance 1e-5 that the code uses it is proved under the assumption that the vectors kept by voronoi generate the lattice, which C88_tolerance_refuted shows can fail; bravais_group_3d is an arbitrary function. Exact arithmetic, lll and voronoi as modelled for C56-C58. |
| C60 | proved | Conserved quantities commute with the Hamiltonian | prettify=False, exact arithmetic. C60_basis also gives completeness: every Hermitian traceless matrix that commutes with all matrices of the block structure is a real combination of the returned ones. Hypotheses: orthonormal, complete projectors with at least one copy of each block. |
| C61 | proved | Unitary assembled from blocks is a symmetry | Model: SymBlocks.v, _find_unitary, _find_unitary_blocks and _construct_unitary with exact comparisons. The solutions of solve_mat_eqn and the eigenvalue test are arbitrary; the assertions of the code are modelled as errors. Hypotheses: orthonormal, complete projectors; block diagonal Hamiltonian coefficients; the transformed coefficients are linear combinations of the (conjugated) original ones. np.isclose(det, 0) is modelled as failure of invertibility. |
| C62 | proved | Normalised square | Same model as C61. _nice_square on diagonal and off-diagonal blocks, and the square of the assembled matrix. Hypothesis for squares_to_1: an element whose square is the identity takes the transformed model back to the original. |
| C63 | proved | Greatest common divisor | the number of iterations is bounded; a single argument is returned unchanged (also if negative) and no argument is a NameError |
| C64 | partial | sympify restores global converter state | REFUTED for asynchronous exceptions: a KeyboardInterrupt between converter.pop and the assignment leaves the finally clause to restore nothing. Proved for every exception raised by the statements after the converter has been set or before the try block, and for nested calls of any depth. |
| C65 | partial | sympify restores the converter table when called concurrently | REFUTED: interleavings exist after which a converter entry remains, or the previous entry is lost. Proved for one call after the other. |
| C66 | partial | monomials decomposes an expression without loss | REFUTED for generators which do not commute with the coefficients (the order of the factors is lost). Proved for values in any ring in which the generators commute with the other factors. sympy.expand and the factor decomposition are given as terms. |
| C67 | proved | Caching does not change results | for every eviction size. The hypothesis on the function holds for _make_int, and for _mul, _inv and _eq when called with the normalised R of group elements; without it the answer depends on the history (C67_raw_refuted: _eq on an integer array and a float array with the same entries) |
| C68 | partial | Symbol normalisation is independent of call history | REFUTED: 1, 1.0 and True share a cache entry of _symbol_normalizer, so the key 1 is stored as 1, 1.0 or true depending on what was normalised before. Proved for string keys. |
| C69 | partial | Rotation angle and axis are recovered | REFUTED: if the components of the axis add up to zero, the angle is computed as if the sine were zero (or an assertion fails), and for half turns about such an axis the axis is divided by zero. Proved for all other rotations; arctan2 and eigh (which reads the lower triangle) enter through contracts. |
| C70 | partial | Printed axis of a continuous rotation is parallel to the rotation axis | REFUTED: the axis is rounded twice, and the second rounding compares an unnormalised vector: the generator of rotations about (1,1,0) is printed with the axis (0,1,0). Among the axes with components -1, 0, 1 exactly the coordinate axes are printed correctly (C70_generator). A single rounding is correct. |
| C71 | partial | Every generator can be printed | REFUTED: generators without (or with zero) conserved quantity raise UnboundLocalError, as do elements of dimension 0 or larger than 3; rotations about (1,-1,0) by less than a quarter turn raise AssertionError. Proved for one and two dimensions, and in three dimensions if the component sum of the axis is not zero or R is symmetric. |
| C72 | proved | Version strings | git and the file system enter through their outputs. Finding: the order of strings is not the order of versions, of the tags v9.0 and v10.0 the archive fallback selects 10.0. |
| C73 | partial | tocsr and toarray preserve the model | REFUTED for LinearOperator values (tocsr drops all terms, toarray raises) and for scalar or 1D models (tocsr raises). Proved for dense and sparse matrices. |
| C74 | partial | subs keeps momenta consistent | REFUTED: two momenta renamed to the same symbol give duplicate momenta; a swap given as a list is applied sequentially to the momenta as to the terms but leaves both with the same name; momenta given as strings are not matched. Proved for single substitutions and for lists of substitutions with fresh symbols. |
| C75 | partial | continuum_pairing returns models in the requested momenta | REFUTED: the pairing blocks are built by Model(dict) without the momenta, so every returned Model has the default momenta whatever was asked for; the momenta agree only when the caller asked for the defaults |
| C76 | proved | continuum_pairing pairing blocks are complete | real span of the result = all polynomial pairing functions of the requested degrees with Delta(-k) = -ph_square Delta(k)^T and the declared covariance; null space is an exact oracle; generators Hermitian with real phases; momenta default (see C75) |
| C77 | proved | simult_diag diagonalises every commuting normal family | checks=0; exact comparisons; eigh, eig, qr, connected_components and argsort are arbitrary functions with their documented contracts. C77_unitary needs no gap: whatever is returned is unitary. C77_gap_refuted shows that the gap is needed for the rest. |
| C78 | proved | Killing form and Casimir are invariant | Exact arithmetic over any field; linearly independent generators; lstsq is any function that returns an exact solution when there is one. C78_example computes the Casimir operator of the Pauli matrices. |
| C79 | proved | Integer inverse | The determinant is computed exactly in the model; the code computes it in floating point. |
| C80 | proved | Mirrors and planar rotations are orthogonal and compose | rotations about an axis in three dimensions use the closed form of the exponential; cosine and sine enter through their addition formulas |
| C81 | partial | Text keys and symbols address the same term | REFUTED: __setitem__ does not normalise keys, so a text key creates a second entry. |
| C82 | partial | Declared shape and format are enforced | REFUTED: an explicit shape is ignored when format is not given. Proved: values are always uniform, and the shape is honoured when both are given. |
| C83 | partial | A missing unitary means the identity everywhere | REFUTED: the product with an element without U has no U, so the U of the other factor is forgotten. |
| C86 | partial | spin_matrices rejects spins that are neither integer nor half-integer | REFUTED: the dimension is rounded before it is compared with an integer, so the assertion never fails; e.g. s = 0.3 is accepted and the result violates the algebra. |
| C87 | partial | Particle-hole symmetry and spin exclude each other | REFUTED: hexagonal accepts spin together with ph=True although its documentation excludes it; square and cubic raise ValueError as documented |
| C88 | partial | Reduced Voronoi vectors are a minimal description of the cell | REFUTED for rtol > 0 (the default): for a rectangular lattice with sides rtol and 1 only one pair of vectors is kept, which neither defines the Voronoi cell nor generates the lattice. With rtol = 0 the kept vectors define the cell and generate the lattice, and they are exactly the vectors of Voronoi's theorem (up to the sign the only shortest ones in their class modulo twice the lattice); for every rtol >= 0 none of the kept vectors is redundant. |
| C89 | partial | bravais_point_group returns the full point group | REFUTED: for the rectangular lattice with sides rtol and 1 (rtol the tolerance of voronoi) only the inversion is returned, the mirrors of the rectangle are missing. Positive with tolerance 0: C103 in two and C105 in three dimensions. |
| C90 | proved | separate_lie_algebra finds the centre | Hermitian, linearly independent generators; exact arithmetic; any singular value decomposition; no non-zero singular value of the Killing form within the tolerance. |
| C91 | proved | struct_const checks closure | The residual check is modelled as in scipy: it is empty when the system is square or rank deficient. |
| C92 | partial | The second component of separate_lie_algebra is the semisimple part | REFUTED: for sigma_x, sigma_y, a projector and the identity the second component is not closed under commutation, so it is not the semisimple part. Proved: it is closed and contains all commutators if the generators are orthogonal with equal norms; it never contains a central element. qsymm itself only uses the first component. |
| C93 | proved | The version is taken from git only in the project's own repository | The outcomes of the git commands and of samefile are inputs. |
| C94 | proved | continuous_symmetries finds exactly the continuous rotation symmetries | The projectors are any orthonormal and complete system that makes the Hamiltonian block diagonal with equal copies; nullspace (with sparse_basis) returns an exact basis; the final assertion is an exact comparison. |
| C95 | partial | continuous_symmetries accepts every Model | REFUTED: a reduced block of size one always raises ValueError, because matrix_basis(1, traceless=True) is empty and family_to_vectors stacks an empty list; the branch for one-dimensional blocks is never reached. The single band k_x^2 + k_y^2 is an example with a rotation symmetry. C94 covers all other Models. |
| C96 | proved | The name of a group element means the element | Angles and comparisons are exact; axes are rounded by any function. arctan2, cos, sin and eigh are arbitrary functions with the stated contracts; C96_contract and C96_eigh show that these can be met. Axes with zero sum are the subject of C69. |
| C97 | proved | symmetry_adapted_sun finds the tensor product structure | Comparisons with any tolerances for soundness, exact ones for C97_found; eigh and svd have their contracts. C97_doc_refuted: the docstring promises the span for every Hermitian L, which fails for the identity; traceless L are meant. C97_empty: d = 1 without generators raises ValueError. |
| C98 | proved | _reduce_hamiltonian finds all unitary symmetries and irreducible blocks | Null spaces are exact; singular values of the Killing form below the tolerance are zero and different eigenvalues of the central generators differ by more than the tolerance of simult_diag (hyp); the library calls have their contracts. sparse=False. |
| C99 | proved | _find_unitary decides whether there is a unitary | Exact comparisons. solve_mat_eqn returns a basis of the solutions, equal eigenvalues are found for unitarily equivalent blocks; the blocks are irreducible and those of different arrays inequivalent. All of these hypotheses are discharged in C100_find. |

## 6. Findings

Each of these is a machine-checked refutation of a property one would expect from
the documentation; the witness is in the theorem.

* **C05** `C05_generate_group_empty_refuted`: generate_group returns a group for every generator set
* **C08** `C08_empty_candidates_refuted`: discrete_symmetries pruning never changes the answer
* **C10** `C10_hash_refuted`: Equal point group elements hash equal
* **C102** `C102_zero_refuted`: Symmetries of a Hamiltonian that is zero
* **C106** `C106_raises_refuted`: bravais_point_group accepts every three-dimensional lattice
* **C107** `C107_complete_refuted`: bravais_point_group finds the half turns of every box
* **C11** `C11_tolerance_transitive_refuted`, `C11_eq_transitive_mixed_flags_refuted`: Equality of point group elements is an equivalence relation
* **C16** `C16_add_constant_refuted`: Adding a constant keeps a Model usable
* **C17** `C17_construct_collision_refuted`: Model construction from a dictionary is additive
* **C19** `C19_add_refuted`, `C19_transform_refuted`: keep survives every operation
* **C20** `C20_symmetric_refuted`: Model equality is symmetric
* **C22** `C22_bloch_singular_rotation_refuted`: Rotating momenta composes and commutes with evaluation
* **C25** `C25_conjugate_refuted`: solve_mat_eqn handles conjugation for general matrices
* **C27** `C27_complement_refuted`: nullspace complement spans the row span
* **C28** `C28_default_step_refuted`, `C28_dimension_refuted`: Sparse nullspace finds every null space of admissible dimension
* **C29** `C29_zero_tolerance_refuted`: rref is a reduced row echelon form with its transformation
* **C30** `C30_zero_matrix_refuted`, `C30_documented_relation_refuted`: rref always honours return_S
* **C33** `C33_accepts_refuted`, `C33_no_symmetries_refuted`: constrain_family accepts every family
* **C35** `C35_zero_dim_refuted`: continuum_hamiltonian is sound and complete
* **C36** `C36_zero_dim_refuted`: continuum_hamiltonian returns linearly independent terms in every dimension
* **C37** `C37_empty_refuted`, `C37_default_comparison_refuted`: symmetrize_monomial projects on the invariant subspace
* **C39** `C39_rounded_refuted`: make_basis_pretty keeps the span
* **C41** `C41_orthogonal_refuted`: subtract_family removes the parallel components
* **C42** `C42_rounding_refuted`, `C42_no_point_group_refuted`: bloch_family hopping terms are Hermitian and respect the selection
* **C43** `C43_strict_flag_refuted`: Library calls do not modify their arguments
* **C47** `C47_sympy_refuted`: Spin representation of hexagonal matches its rotations
* **C48** `C48_refuted`, `C48_direction_refuted`: symmetry_from_permutation represents the permutation
* **C49** `C49_validation_refuted`: ContinuousGroupGenerator validates its rotation part
* **C52** `C52_charge_refuted`: Random scattering matrices have the documented symmetries
* **C56** `C56_transformation_refuted`: LLL returns a basis of the same lattice
* **C57** `C57_zero_refuted`, `C57_group_loops_refuted`: cvp returns the closest lattice points
* **C64** `C64_async_refuted`: sympify restores global converter state
* **C65** `C65_threads_refuted`, `C65_entry_lost_refuted`: sympify restores the converter table when called concurrently
* **C66** `C66_noncommuting_refuted`: monomials decomposes an expression without loss
* **C67** `C67_raw_refuted`: Caching does not change results
* **C68** `C68_history_refuted`: Symbol normalisation is independent of call history
* **C69** `C69_zero_sum_refuted`, `C69_twofold_refuted`: Rotation angle and axis are recovered
* **C70** `C70_twice_refuted`: Printed axis of a continuous rotation is parallel to the rotation axis
* **C71** `C71_generator_refuted`, `C71_dimension_refuted`, `C71_assert_refuted`: Every generator can be printed
* **C73** `C73_tocsr_linear_operator_refuted`, `C73_toarray_linear_operator_refuted`, `C73_tocsr_scalar_refuted`: tocsr and toarray preserve the model
* **C74** `C74_duplicate_refuted`, `C74_swap_refuted`, `C74_string_refuted`: subs keeps momenta consistent
* **C75** `C75_refuted`: continuum_pairing returns models in the requested momenta
* **C77** `C77_gap_refuted`: simult_diag diagonalises every commuting normal family
* **C81** `C81_text_key_assignment_refuted`: Text keys and symbols address the same term
* **C82** `C82_explicit_shape_ignored_refuted`: Declared shape and format are enforced
* **C83** `C83_missing_U_refuted`: A missing unitary means the identity everywhere
* **C86** `C86_rejects_refuted`: spin_matrices rejects spins that are neither integer nor half-integer
* **C87** `C87_hexagonal_refuted`: Particle-hole symmetry and spin exclude each other
* **C88** `C88_tolerance_refuted`: Reduced Voronoi vectors are a minimal description of the cell
* **C89** `C89_complete_refuted`: bravais_point_group returns the full point group
* **C92** `C92_ideal_refuted`: The second component of separate_lie_algebra is the semisimple part
* **C95** `C95_single_band_refuted`: continuous_symmetries accepts every Model
* **C97** `C97_doc_refuted`: symmetry_adapted_sun finds the tensor product structure

Seen while reading, not formalised:

* `symmetries(candidates=[])` returns an empty list.
* `Model + BlochModel` mixes key types silently.
* `ContinuousGroupGenerator.apply` raises NotImplementedError on a BlochModel
  when `R` is not zero.
* `_inv_int` compares a floating point determinant with 1 exactly.
* `continuum_hamiltonian` with a restricted `all_powers` and a fourfold rotation
  raises AssertionError, see C33 for the reason.
* `all_powers` given as a tuple of integers raises TypeError.
* `bloch_family` with `hopping_vectors` given as a tuple and on-site terms raises
  TypeError.
* `hamiltonian_from_family` of an empty family raises AttributeError.
* `split_list` applied to complex eigenvalues can cut a cluster, because only
  neighbouring values are compared.

## 7. Testing the theorems against wrong programs

`seeded/LOG.jsonl` has one line for every wrong program tried: the definition, the
edit, the claim it should break, and the theorems that no longer compile.  An edit
counts only if the edited file itself still compiles, so that it is a program and
not a typing error.  Two early entries (ModelCore.dset, Nullspace.svd_flags) broke
this rule; they were withdrawn and repeated with well-typed edits.  A listed
theorem is one whose proof no longer goes through; the harness does not prove the
statement false.  Edits that no theorem noticed led to stronger statements (field
`tightened`) or are recorded there as equivalent programs.
