{
 "claims": [
  {
   "property": "C01",
   "status": "proved",
   "theorems": [
    "C01_pge_group",
    "C01_pge_powers",
    "C01_pge_inverse_unique"
   ],
   "note": "Over any real closed field; all flags, dimensions, integer exponents."
  },
  {
   "property": "C02",
   "status": "proved",
   "theorems": [
    "C02_apply_value",
    "C02_apply_is_action",
    "C02_apply_inverse"
   ],
   "note": "For all monomial-times-phase keys; exp(i x) is any function with the exponential laws. Multiplicativity requires U given on both factors (or on neither), see C83."
  },
  {
   "property": "C03",
   "status": "proved",
   "theorems": [
    "C03_apply_preserves_hermiticity",
    "C03_apply_ignores_phase"
   ],
   "note": ""
  },
  {
   "property": "C04",
   "status": "proved",
   "theorems": [
    "C04_generate_group_terminates",
    "C04_generate_group_exact",
    "C04_generate_group_pge",
    "C04_generate_group_pge_strict"
   ],
   "note": "For every associative multiplication with a decidable congruence, every iteration order of Python sets; instantiated to PointGroupElements in both comparison modes."
  },
  {
   "property": "C05",
   "status": "partial",
   "theorems": [
    "C05_generate_group_empty_refuted",
    "C05_generate_group_is_group"
   ],
   "note": "REFUTED for the empty generator set (returns the empty set); proved for every non-empty generator set."
  },
  {
   "property": "C06",
   "status": "proved",
   "theorems": [
    "C06_generate_subgroups_exact"
   ],
   "note": ""
  },
  {
   "property": "C07",
   "status": "proved",
   "theorems": [
    "C07_generate_subgroups_minimal"
   ],
   "note": ""
  },
  {
   "property": "C08",
   "status": "proved",
   "theorems": [
    "C08_discrete_symmetries_exact",
    "C08_empty_candidates_refuted"
   ],
   "note": "The loop with the single-candidate test as a correct oracle, any candidate order. Boundary finding: empty candidate sets raise StopIteration."
  },
  {
   "property": "C09",
   "status": "proved",
   "theorems": [
    "C09_irreflexive",
    "C09_transitive",
    "C09_total",
    "C09_identity_R_first",
    "C09_identity_minimal",
    "C09_sorting_unique"
   ],
   "note": ""
  },
  {
   "property": "C10",
   "status": "partial",
   "theorems": [
    "C10_hash_refuted",
    "C10_equal_elements_hash_equal_partial"
   ],
   "note": "REFUTED: a sympy R and the equal floating point R compare equal but hash differently. Proved for R matrices both stored as integers or as rounded floats."
  },
  {
   "property": "C100",
   "status": "proved",
   "theorems": [
    "C100_conserved",
    "C100_count",
    "C100_find"
   ],
   "note": "Composition of C60, C98 and C99; hypotheses are those of C98 (hyp and library contracts) and that the transformed family spans the (conjugated) original one. without prettify; sparse=False."
  },
  {
   "property": "C101",
   "status": "proved",
   "theorems": [
    "C101_find",
    "C101_symmetries",
    "C101_rotations",
    "C101_default",
    "C101_find_bloch",
    "C101_symmetries_bloch",
    "C101_no_candidates"
   ],
   "note": "Composition of C02, C08, C60, C94, C98 and C99 for the driver. Exact comparisons; the hypothesis hyp of C98 on the gaps of eigenvalues; library contracts. C101_rotations needs two dimensions or more and no one-dimensional block (C95). prettify=False, sparse_linalg=False."
  },
  {
   "property": "C102",
   "status": "partial",
   "theorems": [
    "C102_zero_refuted",
    "C102_zero_error",
    "C102_zero_symmetric"
   ],
   "note": "REFUTED: if all coefficients vanish, eliminate_zeros leaves no term and solve_mat_eqn reads HL[0] of an empty list, so _find_unitary raises IndexError for every candidate, although every candidate is a symmetry."
  },
  {
   "property": "C103",
   "status": "proved",
   "theorems": [
    "C103_group",
    "C103_generators",
    "C103_returns",
    "C88_criterion"
   ],
   "note": "Two dimensions, voronoi called with tolerance 0 (the code uses 1e-5, for which C89_complete_refuted is a counterexample). Exact arithmetic; the functions cos and sin have their values at 1/4 and 1/6 of a turn. It returns for c > 4/3 (C104)."
  },
  {
   "property": "C104",
   "status": "proved",
   "theorems": [
    "C104_lll",
    "C104_sharp",
    "C104_bravais",
    "loop_terminates"
   ],
   "note": "Exact arithmetic; the rounding is any function to a nearest integer, which makes the field archimedean. The proof follows the code, which leaves rows after the exchanged pair unreduced: an exchange can then make the vector longer, and the next one undoes it. C104_sharp: the documented condition c > 4/3 is needed, the code does not check it and loops forever."
  },
  {
   "property": "C105",
   "status": "proved",
   "theorems": [
    "C105_group",
    "C105_generators",
    "C105_box",
    "C105_prism",
    "C105_slab",
    "C105_axis"
   ],
   "note": "Three dimensions, voronoi called with tolerance 0 (the code uses 1e-5). Exact arithmetic; the functions cos and sin have their values at 1/2, 1/3, 1/4 and 1/6 of a turn. That it returns is proved for the lattices with an orthogonal basis and for those with a basis of which one vector is perpendicular to the other two (C105_slab), that is the box lattices and the primitive monoclinic, the base centred orthorhombic and the hexagonal ones (given in any basis, c > 4/3, Examples C105_cubic and C105_hexagonal); not claimed: that bravais_group_3d recognises every other lattice, it may raise."
  },
  {
   "property": "C106",
   "status": "partial",
   "theorems": [
    "C106_raises_refuted",
    "C106_exact",
    "C105_box"
   ],
   "note": "REFUTED: for the primitive orthorhombic lattice with sides e, 1 and 1, where e^2 <= 2 rtol and rtol < 1/4 is the tolerance of voronoi (the code uses 1e-5, so e = 4e-3 is enough, Example C106_numbers), voronoi keeps one pair of vectors and the test num_eq[-2] in bravais_group_3d raises IndexError. With tolerance 0 it returns for every lattice that has an orthogonal basis (C105_box), in particular for this one (C106_exact)."
  },
  {
   "property": "C107",
   "status": "partial",
   "theorems": [
    "C107_complete_refuted",
    "C107_exact",
    "C105_box",
    "C105_group"
   ],
   "note": "REFUTED: for the box with sides e, 2 e and 1, where 4 e^2 <= 2 rtol and rtol < 1/10 is the tolerance of voronoi (the code uses 1e-5, so e = 1e-3 is enough, Example C107_numbers), voronoi keeps the two short pairs only, which bravais_group_3d takes for a triclinic lattice: every element that is returned is the identity or the inversion, and the half turn about the first side, which is orthogonal and preserves the lattice, is missing. With tolerance 0 it is found (C107_exact), as all symmetries of every lattice are for which the function returns (C105_group)."
  },
  {
   "property": "C11",
   "status": "partial",
   "theorems": [
    "C11_tolerance_transitive_refuted",
    "C11_eq_transitive_mixed_flags_refuted",
    "C11_reflexive",
    "C11_symmetric",
    "C11_transitive_exact_partial",
    "C11_eq_equivalence_default",
    "C11_eq_equivalence_strict"
   ],
   "note": "REFUTED: transitivity fails for floating point R compared with a tolerance, and when elements with different _strict_eq flags are mixed. Reflexivity and symmetry hold always; transitivity holds for exact R."
  },
  {
   "property": "C12",
   "status": "proved",
   "theorems": [
    "C12_add",
    "C12_neg",
    "C12_sub",
    "C12_scale",
    "C12_div",
    "C12_empty_is_zero",
    "C12_momenta_mismatch_rejected",
    "C12_shape_mismatch_rejected"
   ],
   "note": "Values in any module over a commutative ring, any assignment of values to symbols."
  },
  {
   "property": "C13",
   "status": "proved",
   "theorems": [
    "C13_product",
    "C13_momenta_mismatch_rejected",
    "C13_matmul_associative",
    "C13_matmul_distributes",
    "bilinear_mulmx",
    "bilinear_elementwise"
   ],
   "note": ""
  },
  {
   "property": "C14",
   "status": "proved",
   "theorems": [
    "C14_conj",
    "C14_transpose",
    "C14_trace",
    "C14_adjoint"
   ],
   "note": "Stated for models whose keys are symbolic (see C16 for how a raw key arises)."
  },
  {
   "property": "C15",
   "status": "proved",
   "theorems": [
    "C15_missing_is_zero",
    "C15_read_is_pure",
    "C15_write_then_read",
    "C15_write_accepts_exactly",
    "C15_write_rejects",
    "C15_write_preserves_types"
   ],
   "note": ""
  },
  {
   "property": "C16",
   "status": "partial",
   "theorems": [
    "C16_add_constant_refuted",
    "C16_add_constant_value",
    "C16_add_constant_present"
   ],
   "note": "REFUTED: adding a constant to a model without constant term stores the int 1 as key, and conj/transform_symbolic raise AttributeError. Proved: the evaluation is right, and models that already have a constant term stay usable."
  },
  {
   "property": "C17",
   "status": "partial",
   "theorems": [
    "C17_construct_collision_refuted",
    "C17_construct_distinct",
    "C17_normalize_additive"
   ],
   "note": "REFUTED: of several keys that normalise to the same symbol only the last is kept. Proved additive when normalised keys differ, and for the normalize=True pass."
  },
  {
   "property": "C18",
   "status": "proved",
   "theorems": [
    "C18_truncation_commutes_with_product",
    "C18_constructor_respects_keep",
    "C18_product_respects_keep",
    "C18_symbol_product_respects_keep",
    "C18_linear_operations_respect_keep"
   ],
   "note": ""
  },
  {
   "property": "C19",
   "status": "partial",
   "theorems": [
    "C19_add_refuted",
    "C19_transform_refuted",
    "C19_keep_preserved",
    "C19_add_keep_same"
   ],
   "note": "REFUTED: addition ignores the keep set of the second operand, transform_symbolic (rotate_momenta, apply) loses it. Proved for negation, scaling, symbol products, maps of values, and addition of models with the same keep set."
  },
  {
   "property": "C20",
   "status": "partial",
   "theorems": [
    "C20_symmetric_refuted",
    "C20_symmetric_partial",
    "C20_exact"
   ],
   "note": "REFUTED: when the right operand is within tolerance of zero only the left operand is examined, so a == b and b == a can differ. Symmetric when both or neither model is within tolerance of zero; with zero tolerances equality is exact."
  },
  {
   "property": "C21",
   "status": "proved",
   "theorems": [
    "C21_removes_exactly",
    "C21_sub_dictionary",
    "C21_idempotent",
    "C21_keeps_largest",
    "C21_empty_iff",
    "C21_evaluation_error",
    "C21_around_terms",
    "C21_around_error"
   ],
   "note": ""
  },
  {
   "property": "C22",
   "status": "partial",
   "theorems": [
    "C22_rotate_value",
    "C22_rotate_composes",
    "C22_bloch_rotate_value",
    "C22_tomodel_value",
    "C22_tomodel_rotate",
    "C22_tomodel_conj",
    "C22_tomodel_add",
    "C22_tomodel_mul",
    "C22_bloch_apply_value",
    "C22_bloch_singular_rotation_refuted"
   ],
   "note": "REFUTED for BlochModels and singular matrices (hoppings collide and terms are dropped); proved for Models with any matrix and for BlochModels with every invertible matrix, and tomodel commutes with all operations."
  },
  {
   "property": "C23",
   "status": "proved",
   "theorems": [
    "C23_matrix_basis",
    "C23_members",
    "C23_complex_span"
   ],
   "note": ""
  },
  {
   "property": "C24",
   "status": "proved",
   "theorems": [
    "C24_solve_hermitian",
    "C24_solve_general",
    "C24_rejects"
   ],
   "note": "For a null space routine that returns an exact basis (such a routine exists: ker_rows_exact); matrices of dimension at least one."
  },
  {
   "property": "C25",
   "status": "partial",
   "theorems": [
    "C25_conjugate_refuted",
    "C25_transpose_is_solved",
    "C24_solve_hermitian"
   ],
   "note": "REFUTED: for general matrices the code solves X HL = HR X^T instead of X HL = HR X^*, because the conjugate of a Hermitian basis matrix is its transpose and is extended linearly. Correct with hermitian=True."
  },
  {
   "property": "C26",
   "status": "proved",
   "theorems": [
    "C26_orthonormal",
    "C26_small",
    "C26_large",
    "C26_exact",
    "C26_contracts"
   ],
   "note": "For every decomposition that meets the contract of scipy.linalg.svd, real or complex."
  },
  {
   "property": "C27",
   "status": "partial",
   "theorems": [
    "C27_complement_refuted",
    "C27_complement_conj",
    "C27_complement_real"
   ],
   "note": "REFUTED for complex matrices: the complement spans the complex conjugates of the rows. Proved for real matrices."
  },
  {
   "property": "C28",
   "status": "partial",
   "theorems": [
    "C28_default_step_refuted",
    "C28_dimension_refuted",
    "C28_succeeds_iff",
    "C28_result",
    "C28_step_one",
    "C28_projector",
    "C28_contracts"
   ],
   "note": "REFUTED: with the default step size 15, null space dimension 12 is rejected, and dimension N-2 is always rejected. Proved exactly when the search succeeds and that a successful search returns an orthonormal basis of the null space."
  },
  {
   "property": "C29",
   "status": "proved",
   "theorems": [
    "C29_rref",
    "C29_exact",
    "C29_tolerance",
    "C29_row_span",
    "C29_rref_unique",
    "C29_canonical",
    "C29_zero_tolerance_refuted"
   ],
   "note": "For positive tolerances; with rtol=0 the code can divide by zero (C29_zero_tolerance_refuted). Canonicity holds when the zero tests are exact."
  },
  {
   "property": "C30",
   "status": "partial",
   "theorems": [
    "C30_zero_matrix_refuted",
    "C30_documented_relation_refuted",
    "C29_rref"
   ],
   "note": "REFUTED: a matrix close to zero takes an early return without S, and the documented relation m = S r is the wrong way round (r = S m holds, C29_rref)."
  },
  {
   "property": "C31",
   "status": "proved",
   "theorems": [
    "C31_faithful",
    "C31_shape",
    "C31_rejects",
    "C31_default_accepts"
   ],
   "note": "exact arithmetic; the key order is arbitrary"
  },
  {
   "property": "C32",
   "status": "proved",
   "theorems": [
    "C32_constrain_family",
    "C32_members_symmetric",
    "C32_independent",
    "C32_models",
    "C32_bloch"
   ],
   "note": "relative to an exact nullspace routine (contract exact_nullspace, met by ker_rows); exact comparison"
  },
  {
   "property": "C33",
   "status": "partial",
   "theorems": [
    "C33_accepts_refuted",
    "C33_no_symmetries_refuted",
    "C33_accepts_iff"
   ],
   "note": "REFUTED: raises AssertionError when a key of the family is not produced by any rotated member (exp(ik) with inversion), ValueError without symmetries; C33_accepts_iff gives the exact condition"
  },
  {
   "property": "C34",
   "status": "proved",
   "theorems": [
    "C34_members",
    "C34_once",
    "C34_rejects"
   ],
   "note": "For every dimension >= 1. Listed powers must be distinct for 'once'; dim = 0 takes a separate branch that ignores the degree, see C36."
  },
  {
   "property": "C35",
   "status": "partial",
   "theorems": [
    "C35_continuum_hamiltonian",
    "C35_members",
    "C35_accepts",
    "C35_zero_dim_refuted"
   ],
   "note": "Sound and complete for every dim >= 1 (any mixture of discrete and continuous symmetries, any allowed powers, with an exact null space), and accepted whenever all powers are allowed. REFUTED for dim = 0: constants are returned for total_power=[1]."
  },
  {
   "property": "C36",
   "status": "partial",
   "theorems": [
    "C36_independent_partial",
    "C36_zero_dim_refuted"
   ],
   "note": "REFUTED: with dim=0 the constants are returned once for every degree. Proved for dim >= 1 with distinct degrees and powers."
  },
  {
   "property": "C37",
   "status": "proved",
   "theorems": [
    "C37_projects",
    "C37_idempotent",
    "C37_linear",
    "C37_models",
    "C37_bloch_models",
    "C37_empty_refuted",
    "C37_default_comparison_refuted"
   ],
   "note": "For non-empty lists closed under multiplication and free of repetitions up to the phase of U. Two edge findings: the empty list raises ZeroDivisionError, and closure under the default comparison (which ignores U) is not enough."
  },
  {
   "property": "C38",
   "status": "proved",
   "theorems": [
    "C38_remove_duplicates"
   ],
   "note": "exact arithmetic, relative to a nullspace routine whose second result is an orthonormal basis of the row space (exact_complement, met by gram_schmidt)"
  },
  {
   "property": "C39",
   "status": "partial",
   "theorems": [
    "C39_rounded_refuted",
    "C39_make_basis_pretty",
    "C39_accepts"
   ],
   "note": "REFUTED as stated: the result is rounded, so the span changes for every decimal rounding (witness 1 + sqrt(2) k). Proved before rounding, for every positive tolerance; members that vanish are never dropped."
  },
  {
   "property": "C40",
   "status": "proved",
   "theorems": [
    "C40_subtract_family",
    "C40_accepts"
   ],
   "note": "exact arithmetic, relative to exact_complement"
  },
  {
   "property": "C41",
   "status": "partial",
   "theorems": [
    "C41_orthogonal_refuted",
    "C41_memberwise"
   ],
   "note": "REFUTED: subtracting {k1} from {k1, k1+k2} returns k1+k2. Proved when every member of family1 is in the span of family2 or orthogonal to it."
  },
  {
   "property": "C42",
   "status": "partial",
   "theorems": [
    "C42_rounding_refuted",
    "C42_no_point_group_refuted",
    "C42_terms_hermitian",
    "C42_symmetric_partial",
    "C42_bloch_models_partial",
    "C42_models_partial",
    "C42_constrained",
    "C42_norbs",
    "C42_terms_span",
    "C42_terms_conserved",
    "C42_complete_partial",
    "C42_all_models_partial"
   ],
   "note": "REFUTED: rounding the average breaks the invariance for every rounding that moves some multiple of the exact values, and without point group elements symmetrize=True raises ZeroDivisionError. Hermiticity before symmetrisation proved; invariance, completeness (every invariant combination of terms of the hoppings is in the span of the result) and independence proved with rounding replaced by the identity."
  },
  {
   "property": "C43",
   "status": "partial",
   "theorems": [
    "C43_strict_flag_refuted"
   ],
   "note": "REFUTED: two elements that differ only in U compare equal before the call and different afterwards."
  },
  {
   "property": "C44",
   "status": "proved",
   "theorems": [
    "C44_spin_matrices"
   ],
   "note": "For every s with 2s a natural number, over any real closed field."
  },
  {
   "property": "C45",
   "status": "proved",
   "theorems": [
    "C45_momenta",
    "C45_imaginary",
    "C45_plane"
   ],
   "note": "The matrix exponential is not modelled: the planar rotation is stated with cos + sin J."
  },
  {
   "property": "C46",
   "status": "proved",
   "theorems": [
    "C46_square",
    "C46_cubic",
    "C46_hexagonal2",
    "C46_hexagonal3",
    "hexagon_symmetryP"
   ],
   "note": "for every enumeration order of the sets, every flag combination, with or without spin; exact arithmetic, the values of cosine and sine at the five angles used are hypotheses"
  },
  {
   "property": "C47",
   "status": "partial",
   "theorems": [
    "C47_sympy_refuted",
    "C47_rotation",
    "C47_float"
   ],
   "note": "REFUTED for sympy_R=True (the default): R rotates by -60 degrees while U rotates the spin by +60 degrees, for every spin > 0. Proved for planar rotation(angle, spin) and for sympy_R=False."
  },
  {
   "property": "C48",
   "status": "partial",
   "theorems": [
    "C48_refuted",
    "C48_direction_refuted",
    "C48_support",
    "C48_unitary",
    "C48_accepted",
    "C48_rejects",
    "C48_rejects_sizes"
   ],
   "note": "REFUTED: the blocks are U[ranges[a], ranges[perm[a]]], so the orbitals of perm[a] are mapped to a, the inverse of the documented direction (visible whenever perm is not an involution). Unitarity, block structure and rejection of malformed arguments proved."
  },
  {
   "property": "C49",
   "status": "partial",
   "theorems": [
    "C49_what_is_enforced",
    "C49_validation_refuted"
   ],
   "note": "REFUTED: a Hermitian R that is not antisymmetric is accepted (the code combines the two tests with `and`). Proved exactly which pairs are accepted."
  },
  {
   "property": "C50",
   "status": "proved",
   "theorems": [
    "C50_apply_value",
    "C50_apply_additive",
    "C50_apply_scale",
    "C50_leibniz",
    "C50_preserves_hermiticity",
    "C50_annihilates_constants"
   ],
   "note": "For symbolic (non-Bloch) Models; BlochModels with R raise NotImplementedError."
  },
  {
   "property": "C51",
   "status": "proved",
   "theorems": [
    "C51_hermitian",
    "C51_chiral",
    "C51_time_reversal",
    "C51_particle_hole",
    "C51_t_table",
    "C51_p_table",
    "C51_sizes",
    "C51_keys"
   ],
   "note": "Exact arithmetic; the two random draws are arbitrary matrices, so the statement holds for every outcome of the generator. The distribution itself is not modelled."
  },
  {
   "property": "C52",
   "status": "proved",
   "theorems": [
    "C52_relations",
    "C52_returns",
    "C52_sizes",
    "C52_chiral_charge",
    "C52_D_charge",
    "C52_charge_refuted",
    "C52_contracts"
   ],
   "note": "Exact arithmetic. The QR step is any function that returns a unitary and an upper triangular factor of the prepared matrix, which is assumed invertible (true with probability one). C52_returns shows that the RuntimeError for symplectic matrices cannot occur. C52_charge_refuted records a defect outside the claim: circular(1, D, charge) raises IndexError when the draw has the wrong sign. The effect of charge in class DIII is not proved."
  },
  {
   "property": "C53",
   "status": "proved",
   "theorems": [
    "C53_split_empty",
    "C53_split_list",
    "C53_block_spread"
   ],
   "note": ""
  },
  {
   "property": "C54",
   "status": "proved",
   "theorems": [
    "C54_allclose_iff",
    "C54_allclose_refl",
    "C54_allclose_sym",
    "C54_allclose_exact",
    "C54_allclose_mono"
   ],
   "note": ""
  },
  {
   "property": "C55",
   "status": "proved",
   "theorems": [
    "C55_prop_to_id",
    "C55_prop_to_id_false",
    "C55_prop_to_id_tol"
   ],
   "note": ""
  },
  {
   "property": "C56",
   "status": "proved",
   "theorems": [
    "C56_lattice",
    "C56_lll",
    "C56_transformation_refuted"
   ],
   "note": "The returned rows are a c-reduced basis of the same lattice and the transformation is unimodular, for every run that returns; C104 shows that it does for c > 4/3. The lattice part holds for any rounding and any Gram-Schmidt coefficients, the c-reduced part in exact arithmetic. The documented meaning of the second return value is wrong: the matrix returned is the transpose of the transformation from the original to the reduced basis."
  },
  {
   "property": "C57",
   "status": "partial",
   "theorems": [
    "C57_cvp",
    "C57_ok",
    "C57_terminates",
    "C57_group",
    "C57_dependent",
    "C57_zero_refuted",
    "C57_group_loops_refuted",
    "C57_contracts"
   ],
   "note": "REFUTED for n = 0: the code then looks at distances[-1] and never returns. For n >= 1 the search ends and returns the n closest points (n distinct points, sorted by distance, no other lattice point is closer); with group_by_length every returned list is exactly the points of the n shortest groups, but the search need not end: for the chain of integers and rtol >= 2 it loops for every n. Exact arithmetic; np.round and np.argsort are oracles with their contracts."
  },
  {
   "property": "C58",
   "status": "proved",
   "theorems": [
    "C58_vectors",
    "C58_cell",
    "C58_generates",
    "C58_terminates"
   ],
   "note": "exact arithmetic; np.round and np.argsort are oracles with their contracts; independent basis vectors"
  },
  {
   "property": "C59",
   "status": "partial",
   "theorems": [
    "C59_generating",
    "C59_exact",
    "C59_1d",
    "C59_2d",
    "C59_rectangular",
    "C59_returns"
   ],
   "note": "Proved for one and two dimensions and every tolerance of voronoi, and for every dimension with tolerance 0. In three dimensions with the tolerance 1e-5 that the code uses it is proved under the assumption that the vectors kept by voronoi generate the lattice, which C88_tolerance_refuted shows can fail; bravais_group_3d is an arbitrary function. Exact arithmetic, lll and voronoi as modelled for C56-C58."
  },
  {
   "property": "C60",
   "status": "proved",
   "theorems": [
    "C60_basis",
    "C60_complex",
    "C60_identity",
    "C60_members",
    "C60_count"
   ],
   "note": "prettify=False, exact arithmetic. C60_basis also gives completeness: every Hermitian traceless matrix that commutes with all matrices of the block structure is a real combination of the returned ones. Hypotheses: orthonormal, complete projectors with at least one copy of each block."
  },
  {
   "property": "C61",
   "status": "proved",
   "theorems": [
    "C61_unitary",
    "C61_intertwines",
    "C61_invariant"
   ],
   "note": "Model: SymBlocks.v, _find_unitary, _find_unitary_blocks and _construct_unitary with exact comparisons. The solutions of solve_mat_eqn and the eigenvalue test are arbitrary; the assertions of the code are modelled as errors. Hypotheses: orthonormal, complete projectors; block diagonal Hamiltonian coefficients; the transformed coefficients are linear combinations of the (conjugated) original ones. np.isclose(det, 0) is modelled as failure of invertibility."
  },
  {
   "property": "C62",
   "status": "proved",
   "theorems": [
    "C62_unitary_block",
    "C62_antiunitary_block",
    "C62_square_unitary",
    "C62_square_antiunitary"
   ],
   "note": "Same model as C61. _nice_square on diagonal and off-diagonal blocks, and the square of the assembled matrix. Hypothesis for squares_to_1: an element whose square is the identity takes the transformed model back to the original."
  },
  {
   "property": "C63",
   "status": "proved",
   "theorems": [
    "C63_gcd",
    "C63_short"
   ],
   "note": "the number of iterations is bounded; a single argument is returned unchanged (also if negative) and no argument is a NameError"
  },
  {
   "property": "C64",
   "status": "partial",
   "theorems": [
    "C64_restored",
    "C64_async_refuted"
   ],
   "note": "REFUTED for asynchronous exceptions: a KeyboardInterrupt between converter.pop and the assignment leaves the finally clause to restore nothing. Proved for every exception raised by the statements after the converter has been set or before the try block, and for nested calls of any depth."
  },
  {
   "property": "C65",
   "status": "partial",
   "theorems": [
    "C65_threads_refuted",
    "C65_entry_lost_refuted",
    "C65_sequential"
   ],
   "note": "REFUTED: interleavings exist after which a converter entry remains, or the previous entry is lost. Proved for one call after the other."
  },
  {
   "property": "C66",
   "status": "partial",
   "theorems": [
    "C66_lossless",
    "C66_matrix",
    "C66_separated",
    "C66_noncommuting_refuted"
   ],
   "note": "REFUTED for generators which do not commute with the coefficients (the order of the factors is lost). Proved for values in any ring in which the generators commute with the other factors. sympy.expand and the factor decomposition are given as terms."
  },
  {
   "property": "C67",
   "status": "proved",
   "theorems": [
    "C67_history",
    "C67_value",
    "C67_raises",
    "C67_capacity",
    "C67_make_int",
    "C67_normalised",
    "C67_raw_refuted"
   ],
   "note": "for every eviction size. The hypothesis on the function holds for _make_int, and for _mul, _inv and _eq when called with the normalised R of group elements; without it the answer depends on the history (C67_raw_refuted: _eq on an integer array and a float array with the same entries)"
  },
  {
   "property": "C68",
   "status": "partial",
   "theorems": [
    "C68_history_refuted",
    "C68_strings"
   ],
   "note": "REFUTED: 1, 1.0 and True share a cache entry of _symbol_normalizer, so the key 1 is stored as 1, 1.0 or true depending on what was normalised before. Proved for string keys."
  },
  {
   "property": "C69",
   "status": "partial",
   "theorems": [
    "C69_recovered",
    "C69_symmetric",
    "C69_zero_sum_refuted",
    "C69_twofold_refuted"
   ],
   "note": "REFUTED: if the components of the axis add up to zero, the angle is computed as if the sine were zero (or an assertion fails), and for half turns about such an axis the axis is divided by zero. Proved for all other rotations; arctan2 and eigh (which reads the lower triangle) enter through contracts."
  },
  {
   "property": "C70",
   "status": "partial",
   "theorems": [
    "C70_single",
    "C70_one_rounding",
    "C70_generator",
    "C70_twice_refuted"
   ],
   "note": "REFUTED: the axis is rounded twice, and the second rounding compares an unnormalised vector: the generator of rotations about (1,1,0) is printed with the axis (0,1,0). Among the axes with components -1, 0, 1 exactly the coordinate axes are printed correctly (C70_generator). A single rounding is correct."
  },
  {
   "property": "C71",
   "status": "partial",
   "theorems": [
    "C71_one",
    "C71_two",
    "C71_three",
    "C71_generator",
    "C71_generator_refuted",
    "C71_dimension_refuted",
    "C71_assert_refuted"
   ],
   "note": "REFUTED: generators without (or with zero) conserved quantity raise UnboundLocalError, as do elements of dimension 0 or larger than 3; rotations about (1,-1,0) by less than a quarter turn raise AssertionError. Proved for one and two dimensions, and in three dimensions if the component sum of the axis is not zero or R is symmetric."
  },
  {
   "property": "C72",
   "status": "proved",
   "theorems": [
    "C72_release",
    "C72_labels",
    "C72_dev",
    "C72_injective",
    "C72_describe",
    "C72_archive_tag",
    "C72_archive_prefix",
    "C72_archive_hash",
    "C72_not_numeric",
    "C72_total"
   ],
   "note": "git and the file system enter through their outputs. Finding: the order of strings is not the order of versions, of the tags v9.0 and v10.0 the archive fallback selects 10.0."
  },
  {
   "property": "C73",
   "status": "partial",
   "theorems": [
    "C73_tocsr_linear_operator_refuted",
    "C73_toarray_linear_operator_refuted",
    "C73_tocsr_scalar_refuted",
    "C73_tocsr_matrices",
    "C73_toarray_matrices"
   ],
   "note": "REFUTED for LinearOperator values (tocsr drops all terms, toarray raises) and for scalar or 1D models (tocsr raises). Proved for dense and sparse matrices."
  },
  {
   "property": "C74",
   "status": "partial",
   "theorems": [
    "C74_rename",
    "C74_number",
    "C74_expression",
    "C74_list",
    "C74_duplicate_refuted",
    "C74_swap_refuted",
    "C74_string_refuted"
   ],
   "note": "REFUTED: two momenta renamed to the same symbol give duplicate momenta; a swap given as a list is applied sequentially to the momenta as to the terms but leaves both with the same name; momenta given as strings are not matched. Proved for single substitutions and for lists of substitutions with fresh symbols."
  },
  {
   "property": "C75",
   "status": "partial",
   "theorems": [
    "C75_momenta",
    "C75_refuted"
   ],
   "note": "REFUTED: the pairing blocks are built by Model(dict) without the momenta, so every returned Model has the default momenta whatever was asked for; the momenta agree only when the caller asked for the defaults"
  },
  {
   "property": "C76",
   "status": "proved",
   "theorems": [
    "C76_pairing",
    "C76_member",
    "C76_accepts",
    "C76_rejects"
   ],
   "note": "real span of the result = all polynomial pairing functions of the requested degrees with Delta(-k) = -ph_square Delta(k)^T and the declared covariance; null space is an exact oracle; generators Hermitian with real phases; momenta default (see C75)"
  },
  {
   "property": "C77",
   "status": "proved",
   "theorems": [
    "C77_simult_diag",
    "C77_orthogonal",
    "C77_unitary",
    "C77_not_commuting",
    "C77_not_normal",
    "C77_gap_refuted",
    "C77_contracts"
   ],
   "note": "checks=0; exact comparisons; eigh, eig, qr, connected_components and argsort are arbitrary functions with their documented contracts. C77_unitary needs no gap: whatever is returned is unitary. C77_gap_refuted shows that the gap is needed for the rest."
  },
  {
   "property": "C78",
   "status": "proved",
   "theorems": [
    "C78_killing",
    "C78_casimir"
   ],
   "note": "Exact arithmetic over any field; linearly independent generators; lstsq is any function that returns an exact solution when there is one. C78_example computes the Casimir operator of the Pauli matrices."
  },
  {
   "property": "C79",
   "status": "proved",
   "theorems": [
    "C79_inv_int",
    "C79_inv_int_correct",
    "C79_inv_int_empty"
   ],
   "note": "The determinant is computed exactly in the model; the code computes it in floating point."
  },
  {
   "property": "C80",
   "status": "proved",
   "theorems": [
    "C80_mirror",
    "C80_mirror_spin",
    "C80_both_rejected",
    "C80_rotation_2d",
    "C80_rotation_3d",
    "C80_mirror_rotoinversion",
    "C80_inversion",
    "C80_chiral",
    "C80_altland_zirnbauer"
   ],
   "note": "rotations about an axis in three dimensions use the closed form of the exponential; cosine and sine enter through their addition formulas"
  },
  {
   "property": "C81",
   "status": "partial",
   "theorems": [
    "C81_text_key_assignment_refuted",
    "C15_write_then_read"
   ],
   "note": "REFUTED: __setitem__ does not normalise keys, so a text key creates a second entry."
  },
  {
   "property": "C82",
   "status": "partial",
   "theorems": [
    "C82_explicit_shape_ignored_refuted",
    "C82_constructed_models_are_well_typed",
    "C82_explicit_shape_and_format"
   ],
   "note": "REFUTED: an explicit shape is ignored when format is not given. Proved: values are always uniform, and the shape is honoured when both are given."
  },
  {
   "property": "C83",
   "status": "partial",
   "theorems": [
    "C83_missing_U_refuted",
    "C02_apply_is_action"
   ],
   "note": "REFUTED: the product with an element without U has no U, so the U of the other factor is forgotten."
  },
  {
   "property": "C86",
   "status": "partial",
   "theorems": [
    "C86_rejects_refuted"
   ],
   "note": "REFUTED: the dimension is rounded before it is compared with an integer, so the assertion never fails; e.g. s = 0.3 is accepted and the result violates the algebra."
  },
  {
   "property": "C87",
   "status": "partial",
   "theorems": [
    "C87_square_cubic",
    "C87_hexagonal_refuted"
   ],
   "note": "REFUTED: hexagonal accepts spin together with ph=True although its documentation excludes it; square and cubic raise ValueError as documented"
  },
  {
   "property": "C88",
   "status": "partial",
   "theorems": [
    "C88_vectors",
    "C88_cell",
    "C88_generates",
    "C88_minimal",
    "C88_criterion",
    "C88_tolerance_refuted"
   ],
   "note": "REFUTED for rtol > 0 (the default): for a rectangular lattice with sides rtol and 1 only one pair of vectors is kept, which neither defines the Voronoi cell nor generates the lattice. With rtol = 0 the kept vectors define the cell and generate the lattice, and they are exactly the vectors of Voronoi's theorem (up to the sign the only shortest ones in their class modulo twice the lattice); for every rtol >= 0 none of the kept vectors is redundant."
  },
  {
   "property": "C89",
   "status": "partial",
   "theorems": [
    "C89_complete_refuted",
    "C103_group",
    "C103_generators"
   ],
   "note": "REFUTED: for the rectangular lattice with sides rtol and 1 (rtol the tolerance of voronoi) only the inversion is returned, the mirrors of the rectangle are missing. Positive with tolerance 0: C103 in two and C105 in three dimensions."
  },
  {
   "property": "C90",
   "status": "proved",
   "theorems": [
    "C90_centre",
    "C90_contracts"
   ],
   "note": "Hermitian, linearly independent generators; exact arithmetic; any singular value decomposition; no non-zero singular value of the Killing form within the tolerance."
  },
  {
   "property": "C91",
   "status": "proved",
   "theorems": [
    "C91_closed",
    "C91_error"
   ],
   "note": "The residual check is modelled as in scipy: it is empty when the system is square or rank deficient."
  },
  {
   "property": "C92",
   "status": "partial",
   "theorems": [
    "C92_ideal_refuted",
    "C92_ideal",
    "C92_no_centre"
   ],
   "note": "REFUTED: for sigma_x, sigma_y, a projector and the identity the second component is not closed under commutation, so it is not the semisimple part. Proved: it is closed and contains all commutators if the generators are orthogonal with equal norms; it never contains a central element. qsymm itself only uses the first component."
  },
  {
   "property": "C93",
   "status": "proved",
   "theorems": [
    "C93_foreign",
    "C93_no_git",
    "C93_own",
    "C93_no_tag",
    "C93_static"
   ],
   "note": "The outcomes of the git commands and of samefile are inputs."
  },
  {
   "property": "C94",
   "status": "proved",
   "theorems": [
    "C94_basis",
    "C94_symmetry",
    "C94_complete",
    "C94_low_dimension"
   ],
   "note": "The projectors are any orthonormal and complete system that makes the Hamiltonian block diagonal with equal copies; nullspace (with sparse_basis) returns an exact basis; the final assertion is an exact comparison."
  },
  {
   "property": "C95",
   "status": "partial",
   "theorems": [
    "C95_single_band_refuted",
    "C95_one_dimensional_block"
   ],
   "note": "REFUTED: a reduced block of size one always raises ValueError, because matrix_basis(1, traceless=True) is empty and family_to_vectors stacks an empty list; the branch for one-dimensional blocks is never reached. The single band k_x^2 + k_y^2 is an example with a rotation symmetry. C94 covers all other Models."
  },
  {
   "property": "C96",
   "status": "proved",
   "theorems": [
    "C96_one",
    "C96_two",
    "C96_identity2",
    "C96_three",
    "C96_identity3",
    "C96_mirror3",
    "C96_short",
    "C96_flags",
    "C96_unique2",
    "C96_contract",
    "C96_eigh"
   ],
   "note": "Angles and comparisons are exact; axes are rounded by any function. arctan2, cos, sin and eigh are arbitrary functions with the stated contracts; C96_contract and C96_eigh show that these can be met. Axes with zero sum are the subject of C69."
  },
  {
   "property": "C97",
   "status": "proved",
   "theorems": [
    "C97_sound",
    "C97_error",
    "C97_found",
    "C97_empty",
    "C97_doc_refuted"
   ],
   "note": "Comparisons with any tolerances for soundness, exact ones for C97_found; eigh and svd have their contracts. C97_doc_refuted: the docstring promises the span for every Hermitian L, which fails for the identity; traceless L are meant. C97_empty: d = 1 without generators raises ValueError."
  },
  {
   "property": "C98",
   "status": "proved",
   "theorems": [
    "C98_general",
    "C98_sound",
    "C98_error",
    "C98_found",
    "C98_blocks",
    "C98_irreducible",
    "C98_inequivalent",
    "C98_size"
   ],
   "note": "Null spaces are exact; singular values of the Killing form below the tolerance are zero and different eigenvalues of the central generators differ by more than the tolerance of simult_diag (hyp); the library calls have their contracts. sparse=False."
  },
  {
   "property": "C99",
   "status": "proved",
   "theorems": [
    "C99_decides",
    "C99_complete"
   ],
   "note": "Exact comparisons. solve_mat_eqn returns a basis of the solutions, equal eigenvalues are found for unitarily equivalent blocks; the blocks are irreducible and those of different arrays inequivalent. All of these hypotheses are discharged in C100_find."
  }
 ]
}