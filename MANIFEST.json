{
 "claims": [
  {
   "property": "C01",
   "status": "proved",
   "theorems": [
    "C01_hermitian_unitary",
    "C01_satisfiable"
   ],
   "note": "for every *-algebra with the relations; satisfiability shown by a concrete Fock representation"
  },
  {
   "property": "C02",
   "status": "partial",
   "theorems": [
    "C02_accepted_hermitian_refuted",
    "C02_accepted_hermitian_partial"
   ],
   "note": "false of the code: opstring(\"1j A 1\") is accepted; proved for all other accepted prefactors"
  },
  {
   "property": "C03",
   "status": "partial",
   "theorems": [
    "C03_eq_hash_refuted",
    "C03_eq_hash_partial"
   ],
   "note": "false of the code: \"1.0 X 1\" == \"X 1\" with different hashes; proved for default prefactors"
  },
  {
   "property": "C04",
   "status": "partial",
   "theorems": [
    "C04_print_parse_partial",
    "C04_print_parse_refuted"
   ],
   "note": "round trip of operators, labels, type and prefactor value proved; same dictionary key and second round trip refuted"
  },
  {
   "property": "C05",
   "status": "partial",
   "theorems": [
    "C05_length_check_refuted"
   ],
   "note": "false of the code: the ValueError is built but not raised"
  },
  {
   "property": "C06",
   "status": "partial",
   "theorems": [
    "C06_type_check_refuted",
    "C06_type_check_partial"
   ],
   "note": "false of the code: only the last operator decides the type; that part is proved"
  },
  {
   "property": "C07",
   "status": "proved",
   "theorems": [
    "C07_product_exact"
   ],
   "note": ""
  },
  {
   "property": "C08",
   "status": "proved",
   "theorems": [
    "C08_commutator_exact"
   ],
   "note": ""
  },
  {
   "property": "C09",
   "status": "proved",
   "theorems": [
    "C09_anticommutator_exact"
   ],
   "note": ""
  },
  {
   "property": "C10",
   "status": "proved",
   "theorems": [
    "C10_commute_or_anticommute"
   ],
   "note": ""
  },
  {
   "property": "C11",
   "status": "proved",
   "theorems": [
    "C11_results_well_formed"
   ],
   "note": ""
  },
  {
   "property": "C12",
   "status": "partial",
   "theorems": [
    "C12_product_assoc",
    "C12_antisymmetry",
    "C12_jacobi_partial",
    "C12_jacobi_no_small_partial",
    "C12_jacobi_refuted"
   ],
   "note": "Associativity of string products and antisymmetry for all Operators are proved. The Jacobi identity on Operators is proved for Gaussian-integer coefficients and whenever no product of coefficients is non-zero and below 1e-16; for arbitrary coefficients it is false and refuted by a witness (dropped small terms). Gaussian rationals stand for complex floats."
  },
  {
   "property": "C13",
   "status": "partial",
   "theorems": [
    "C13_mixed_types_refuted",
    "C13_mixed_types_partial"
   ],
   "note": "false of the code for a Pauli first operand; proved for Majorana and Fermion first operands"
  },
  {
   "property": "C14",
   "status": "proved",
   "theorems": [
    "C14_operation",
    "C14_operation_exact",
    "C14_types"
   ],
   "note": "Pauli and Majorana Operators with Gaussian-rational coefficients; the dropped terms are characterised; exact when no product of coefficients is non-zero and below 1e-16; different types raise ValueError."
  },
  {
   "property": "C15",
   "status": "proved",
   "theorems": [
    "C15_structure_constants"
   ],
   "note": "Pauli and Majorana bases, all three modes, any tol in [0,1]."
  },
  {
   "property": "C16",
   "status": "proved",
   "theorems": [
    "C16_liouvillian_basis",
    "C16_liouvillian_operators"
   ],
   "note": "Basis and list-of-Operators arguments, all three modes."
  },
  {
   "property": "C17",
   "status": "proved",
   "theorems": [
    "C17_commutant_basis",
    "C17_commutant_operators"
   ],
   "note": "Kernel of the commutant matrix over Gaussian rationals, in every non-trivial representation of the relations; the eigensolver itself is not modelled."
  },
  {
   "property": "C18",
   "status": "proved",
   "theorems": [
    "C18_lie_algebra"
   ],
   "note": "Basis argument, Pauli and Majorana, tolerance in (0,1]; with tol=0 the call raises TypeError (example). The list-of-Operators variant is not covered."
  },
  {
   "property": "C19",
   "status": "partial",
   "theorems": [
    "C19_lookup_bijection",
    "C19_same_key_is_equal",
    "C19_shared_list_refuted"
   ],
   "note": "proved for every Basis built by constructor, + and += (value semantics); refuted for two Basis objects made from the same list object"
  },
  {
   "property": "C20",
   "status": "proved",
   "theorems": [
    "C20_add_basis",
    "C20_add_string",
    "C20_append_new"
   ],
   "note": ""
  },
  {
   "property": "C21",
   "status": "proved",
   "theorems": [
    "C21_coefficient",
    "C21_add_sub",
    "C21_scale",
    "C21_add_denotes"
   ],
   "note": "coefficients as a function on keys; in addition the sum denotes the sum in every algebra for default prefactors"
  },
  {
   "property": "C22",
   "status": "partial",
   "theorems": [
    "C22_shared_basis_refuted",
    "C22_iadd_partial",
    "C22_isub_partial"
   ],
   "note": "false of the code for Operators sharing a Basis object; proved for all histories building Operators from lists or other Operators"
  },
  {
   "property": "C23",
   "status": "proved",
   "theorems": [
    "C23_remove_zeros",
    "C23_to_vector"
   ],
   "note": "default numpy output format of to_vector"
  },
  {
   "property": "C24",
   "status": "proved",
   "theorems": [
    "C24_cluster_basis",
    "C24_bad_k"
   ],
   "note": "All three operator types, k as int or list, any distinct labels; invalid k raises ValueError."
  },
  {
   "property": "C25",
   "status": "partial",
   "theorems": [
    "C25_cluster_basis_partial",
    "C25_refuted"
   ],
   "note": "True and proved for k <= 2 or at most two labels (any labels, any tol); refuted for k = 3 on three labels, where conversion_matrix raises KeyError."
  },
  {
   "property": "C26",
   "status": "proved",
   "theorems": [
    "C26_distance_basis",
    "C26_lattice"
   ],
   "note": "Any symmetric distance test (entered as a boolean function of pairs i<j), any k, any allowed orbitals below n, all set-iteration orders. Distances R+tol abstracted into the test."
  },
  {
   "property": "C27",
   "status": "partial",
   "theorems": [
    "C27_include_identity_refuted"
   ],
   "note": "The property is false; proved that the identity is never in the result, for all inputs (refuted)."
  },
  {
   "property": "C28",
   "status": "proved",
   "theorems": [
    "C28_sort_sign"
   ],
   "note": ""
  },
  {
   "property": "C29",
   "status": "proved",
   "theorems": [
    "C29_sign"
   ],
   "note": ""
  },
  {
   "property": "C30",
   "status": "proved",
   "theorems": [
    "C30_compare"
   ],
   "note": ""
  },
  {
   "property": "C31",
   "status": "proved",
   "theorems": [
    "C31_maximal_cliques"
   ],
   "note": "for every set iteration order; Python's recursion limit is not modelled"
  },
  {
   "property": "C32",
   "status": "proved",
   "theorems": [
    "C32_connected_components"
   ],
   "note": ""
  },
  {
   "property": "C33",
   "status": "proved",
   "theorems": [
    "C33_remove_duplicates"
   ],
   "note": ""
  },
  {
   "property": "C34",
   "status": "partial",
   "theorems": [
    "C34_swap_refuted",
    "C34_swap_partial"
   ],
   "note": "false of the code: parenthesised or overlapping names; proved for names that cannot be confused"
  },
  {
   "property": "C35",
   "status": "proved",
   "theorems": [
    "C35_replace"
   ],
   "note": ""
  },
  {
   "property": "C36",
   "status": "proved",
   "theorems": [
    "C36_compose"
   ],
   "note": ""
  },
  {
   "property": "C37",
   "status": "proved",
   "theorems": [
    "C37_gram_schmidt",
    "C37_zero_first_column_refuted"
   ],
   "note": "over exact complex numbers; the zero first column case is refuted separately"
  },
  {
   "property": "C38",
   "status": "partial",
   "theorems": [
    "C38_argsort_partial",
    "C38_argsort_cmp_refuted"
   ],
   "note": "proved without comparison function (stable sorting permutation); with one it is false of the code"
  },
  {
   "property": "C39",
   "status": "proved",
   "theorems": [
    "C39_majorana_to_fermion"
   ],
   "note": "All Majorana strings, every algebra with canonical anticommutation relations."
  },
  {
   "property": "C40",
   "status": "partial",
   "theorems": [
    "C40_fermion_to_majorana_partial",
    "C40_refuted"
   ],
   "note": "Proved for all strings with distinct creation and distinct annihilation labels on at most 51 orbitals (any number if I = J) for which some term is left; otherwise ValueError, proved for all such strings. The full claim is refuted by a string denoting zero."
  },
  {
   "property": "C41",
   "status": "proved",
   "theorems": [
    "C41_pauli_to_majorana",
    "C41_majorana_to_pauli"
   ],
   "note": "All Pauli and Majorana strings with distinct non-negative labels."
  },
  {
   "property": "C42",
   "status": "proved",
   "theorems": [
    "C42_pauli_round_trip",
    "C42_majorana_round_trip",
    "C42_fermion_round_trip"
   ],
   "note": "Pauli/Majorana round trips for all canonical strings; through Fermion for Majorana strings on at most 51 labels (limit from the 2^-52 threshold in the code)."
  },
  {
   "property": "C43",
   "status": "proved",
   "theorems": [
    "C43_linear",
    "C43_error",
    "C43_denotes",
    "C43_same_type",
    "C43_fermion_to_pauli",
    "C43_pauli_to_fermion"
   ],
   "note": "All Operators; linearity coefficient by coefficient, first error returned, same type returns the same Operator, Fermion<->Pauli equals the route through Majorana."
  },
  {
   "property": "C44",
   "status": "partial",
   "theorems": [
    "C44_columns",
    "C44_key_error",
    "C44_empty_refuted"
   ],
   "note": "All non-empty bases proved, with the KeyError case; the clause on an empty basis_from is refuted (TypeError)."
  },
  {
   "property": "C45",
   "status": "partial",
   "theorems": [
    "C45_total_partial",
    "C45_refuted"
   ],
   "note": "Totality proved for all strings except Fermion strings for which no term is left; refuted for the Fermion identity without include_identity."
  },
  {
   "property": "C46",
   "status": "proved",
   "theorems": [
    "C46_string",
    "C46_products",
    "C46_operator",
    "C46_compose",
    "C46_identity",
    "C46_rejected"
   ],
   "note": "Every permutation, all Pauli and Majorana strings and Operators with labels in range; negative labels (Python index from the end) are outside the statement."
  },
  {
   "property": "C47",
   "status": "partial",
   "theorems": [
    "C47_string",
    "C47_products",
    "C47_operator",
    "C47_operator_map",
    "C47_complex_refuted",
    "C47_spinful_string",
    "C47_spinful_products",
    "C47_spinful_operator"
   ],
   "note": "Proved for all strings, products, involution and Operators with real coefficients (spinless and spinful). For complex coefficients apply does not conjugate them: C47_complex_refuted."
  },
  {
   "property": "C48",
   "status": "proved",
   "theorems": [
    "C48_string",
    "C48_products",
    "C48_operator"
   ],
   "note": "All Majorana strings, products and Operators; involution on Operators."
  },
  {
   "property": "C49",
   "status": "proved",
   "theorems": [
    "C49_sign",
    "C49_products"
   ],
   "note": "For the given list of down orbitals; reading that list off a lattice is covered by the lattice model."
  },
  {
   "property": "C50",
   "status": "partial",
   "theorems": [
    "C50_product_partial",
    "C50_product_operator_partial",
    "C50_small_refuted",
    "C50_power_step",
    "C50_power_iterated",
    "C50_permutation_power"
   ],
   "note": "Products compose unless a product of coefficients is nonzero and at most 1e-12 in modulus (C50_small_refuted shows the failure); powers proved step by step, for unit monomial transformations and for permutations."
  },
  {
   "property": "C51",
   "status": "partial",
   "theorems": [
    "C51_zero_refuted",
    "C51_other_partial"
   ],
   "note": "Refuted for exponent 0, which raises ValueError; negative exponents rejected and positive ones accepted."
  },
  {
   "property": "C52",
   "status": "proved",
   "theorems": [
    "C52_columns",
    "C52_eigenspace",
    "C52_deviation",
    "C52_invariant_operators",
    "C52_monomial"
   ],
   "note": "symmetry_matrix and invariant_operators of a Basis; the eigensolver is a hypothesis. The variant for a list of Operators (pseudo-inverse) is not modelled."
  },
  {
   "property": "C53",
   "status": "partial",
   "theorems": [
    "C53_commuting_partial",
    "C53_whole_group_partial",
    "C53_group_list",
    "C53_no_generators",
    "C53_reflections_refuted",
    "C53_repeated_refuted",
    "C53_identity_refuted"
   ],
   "note": "Proved with completeness and disjointness when the generators commute, are distinct and are not the identity, and in general whenever the list of permutations found is the whole group without repetition. Refuted in general: two non-commuting reflections, a repeated generator, and the identity as a generator each give an Operator that a generator changes."
  },
  {
   "property": "C54",
   "status": "proved",
   "theorems": [
    "C54_string",
    "C54_product",
    "C54_operator",
    "C54_add",
    "C54_scale",
    "C54_errors",
    "C54_negative_labels"
   ],
   "note": "All Pauli strings and Operators with labels 0..n-1, all n: tensor-product entries, Hermitian, product, sum, multiple. A label of n or more raises ValueError; at a negative label X and Y raise and Z acts as the identity."
  },
  {
   "property": "C55",
   "status": "partial",
   "theorems": [
    "C55_inverse",
    "C55_unsorted_refuted"
   ],
   "note": "Proved for all n, Operators and bases of Pauli strings with sorted labels; refuted for strings with unsorted labels, which to_vector cannot tell from their sorted form."
  },
  {
   "property": "C56",
   "status": "partial",
   "theorems": [
    "C56_refuted",
    "C56_roundtrip_refuted"
   ],
   "note": "The property is false: the call to to_vector lacks an argument, so to_operator always raises TypeError (refuted)."
  },
  {
   "property": "C57",
   "status": "proved",
   "theorems": [
    "C57_string",
    "C57_operator",
    "C57_states",
    "C57_errors"
   ],
   "note": "All n, permutations, Pauli strings with distinct labels, Operators of sorted strings and state vectors; basis states and error cases too."
  },
  {
   "property": "C58",
   "status": "proved",
   "theorems": [
    "C58_partial_trace",
    "C58_two_vectors",
    "C58_strings"
   ],
   "note": "All n, duplicate-free label lists in any order and vectors, for all matrices on the kept orbitals; also for pairs of vectors and for Pauli strings through to_matrix."
  },
  {
   "property": "C59",
   "status": "proved",
   "theorems": [
    "C59_majorana",
    "C59_majorana_refused",
    "C59_fermion",
    "C59_pauli",
    "C59_complex_refuted",
    "C59_tight_binding",
    "C59_bdg"
   ],
   "note": "for real coefficients; imaginary parts are lost (complex_refuted); also the matrix of diagonalize_bdg"
  },
  {
   "property": "C60",
   "status": "proved",
   "theorems": [
    "C60_explore",
    "C60_from_scratch"
   ],
   "note": "for all histories with one Pauli or Majorana Operator whose prefactors print as usual; also with allowed_labels"
  },
  {
   "property": "C61",
   "status": "partial",
   "theorems": [
    "C61_second_operator_refuted",
    "C61_wrong_refuted"
   ],
   "note": "false of the code: on a basis explored before, the matrix for a second Operator with other strings is always empty"
  },
  {
   "property": "C62",
   "status": "partial",
   "theorems": [
    "C62_truncate_basis",
    "C62_truncate_operator",
    "C62_greedy_refuted"
   ],
   "note": "proved for _truncate_basis and _truncate_operator without filter and for any order of equal moduli; false in selected_ci_greedy, which pairs the kept strings with the first coefficients"
  },
  {
   "property": "C63",
   "status": "proved",
   "theorems": [
    "C63_orbitals",
    "C63_default_open",
    "C63_index",
    "C63_index_meaning",
    "C63_cubic",
    "C63_duplicate_refuted"
   ],
   "note": "generic position = the printed positions differ (told_apart); without it the index is not a bijection (C63_duplicate_refuted)"
  },
  {
   "property": "C64",
   "status": "proved",
   "theorems": [
    "C64_index_crystal",
    "C64_shift",
    "C64_cubic",
    "C64_two_periods_refuted"
   ],
   "note": "beyond one period nothing is found (C64_two_periods_refuted)"
  },
  {
   "property": "C65",
   "status": "proved",
   "theorems": [
    "C65_metric",
    "C65_labels",
    "C65_cubic",
    "C65_chain",
    "C65_skew_refuted"
   ],
   "note": "minimal over images one period away; over all images for cubic lattices, not for skew vectors (C65_skew_refuted)"
  },
  {
   "property": "C66",
   "status": "partial",
   "theorems": [
    "C66_moved",
    "C66_rule",
    "C66_cubic",
    "C66_translation",
    "C66_singular_refuted"
   ],
   "note": "false of the code for singular R (singular_refuted); every entry is proved right, and the map is a permutation if R r + t tells the orbitals apart"
  },
  {
   "property": "C67",
   "status": "partial",
   "theorems": [
    "C67_symmetric",
    "C67_one_expansion",
    "C67_one_generator_refuted",
    "C67_not_symmetric_refuted",
    "C67_missing_atoms_refuted",
    "C67_zero_expansions"
   ],
   "note": "false of the code: for one generator of order 3 or more the group loop stops at {1, r}, and only the copies along the last lattice vector are kept; proved: symmetry under every matrix that maps the found list into itself, and the exact atoms after one expansion"
  },
  {
   "property": "C68",
   "status": "proved",
   "theorems": [
    "C68_intersection"
   ],
   "note": "eigensolver as an oracle returning an orthonormal kernel basis"
  },
  {
   "property": "C69",
   "status": "proved",
   "theorems": [
    "C69_spin_flip",
    "C69_no_partner"
   ],
   "note": ""
  },
  {
   "property": "C70",
   "status": "proved",
   "theorems": [
    "C70_spin_parity"
   ],
   "note": ""
  },
  {
   "property": "C71",
   "status": "proved",
   "theorems": [
    "C71_time_reversal",
    "C71_argument"
   ],
   "note": "strings with default spelled prefactors"
  },
  {
   "property": "C72",
   "status": "proved",
   "theorems": [
    "C63_cubic",
    "C64_cubic",
    "C65_cubic",
    "C65_chain"
   ],
   "note": ""
  },
  {
   "property": "C73",
   "status": "proved",
   "theorems": [
    "C63_orbitals",
    "C63_index_meaning"
   ],
   "note": ""
  },
  {
   "property": "C74",
   "status": "proved",
   "theorems": [
    "C65_metric",
    "C65_labels"
   ],
   "note": ""
  },
  {
   "property": "C75",
   "status": "proved",
   "theorems": [
    "C66_translation"
   ],
   "note": ""
  },
  {
   "property": "C76",
   "status": "partial",
   "theorems": [
    "C76_majorana",
    "C76_fermion",
    "C76_fermion_shift_refuted",
    "C76_misaligned_refuted",
    "C76_fermion_vectors_refuted",
    "C76_lattice"
   ],
   "note": "scipy.linalg.schur is an oracle whose 2x2 blocks start at even positions (needed: misaligned_refuted); energies, shift and Majorana modes proved; the Fermion eigenvectors are never unitary for two or more orbitals (fermion_vectors_refuted) and the constant of a Fermion Operator is lost (fermion_shift_refuted)"
  },
  {
   "property": "C77",
   "status": "partial",
   "theorems": [
    "C77_tolerance",
    "C77_refuted"
   ],
   "note": "false of the code for entries within tol; proved: the result is a rearrangement whose sign is returned, only pairs further apart than tol are exchanged, steps down are at most tol, ascending if different entries are further apart than tol"
  },
  {
   "property": "C78",
   "status": "proved",
   "theorems": [
    "C78_kernel",
    "C78_sound",
    "C78_complete"
   ],
   "note": "Eigensolver is an oracle; hypotheses are about the one matrix it is given."
  },
  {
   "property": "C79",
   "status": "partial",
   "theorems": [
    "C79_refuted"
   ],
   "note": "False: every other string, such as 'commute' (which invariant_operators accepts), gives the zero superoperator, so all operators seem to commute."
  },
  {
   "property": "C80",
   "status": "proved",
   "theorems": [
    "C80_sparsify",
    "C80_single",
    "C80_many"
   ],
   "note": "LU decomposition and argsort are oracles with the specifications lu_columns and sorts."
  },
  {
   "property": "C81",
   "status": "partial",
   "theorems": [
    "C81_refuted"
   ],
   "note": "False for dependent vectors: (1,0),(1,0) give two vectors that span the plane. C80 is the correct statement for independent vectors."
  },
  {
   "property": "C82",
   "status": "proved",
   "theorems": [
    "C82_symmetric"
   ],
   "note": "Meaning in every algebra with the relations of the type; hypothesis exact_run restricts the oracle to the matrices actually diagonalised; L_LU proves that the LU oracle exists."
  },
  {
   "property": "C83",
   "status": "proved",
   "theorems": [
    "C83_kernel",
    "C83_sound",
    "C83_complete",
    "C83_transformations"
   ],
   "note": "The eigensolver and the pseudo-inverse are oracles with explicit specifications; arithmetic is exact."
  },
  {
   "property": "C84",
   "status": "partial",
   "theorems": [
    "C84_refuted"
   ],
   "note": "False: for [X_0, X_0 + X_1] and the exchange of 0 and 1 nothing is returned, although X_0 + X_1 is invariant. C83 is the correct statement."
  },
  {
   "property": "C85",
   "status": "proved",
   "theorems": [
    "C85_sites",
    "C85_distance",
    "C85_triangles"
   ],
   "note": "Coordinates are exact rationals; h stands for the float sqrt(3)/2."
  },
  {
   "property": "C86",
   "status": "partial",
   "theorems": [
    "C86_refuted"
   ],
   "note": "False: columns are overwritten by the operators of the smaller space; concrete counterexample with X_1, Z_1."
  },
  {
   "property": "C87",
   "status": "partial",
   "theorems": [
    "C87_refuted"
   ],
   "note": "False: result lists are appended to and never cleared, so the new symmetry is not enforced; concrete counterexample."
  },
  {
   "property": "C88",
   "status": "proved",
   "theorems": [
    "C88_cumulative"
   ],
   "note": "Meaning in every algebra with the relations of the type; exact_crun restricts the eigensolver to the matrices of the run and asks that no coefficient of a found vector is non-zero but at most tol (such coefficients are dropped). The default options with a Transformation are excluded: see C89."
  },
  {
   "property": "C89",
   "status": "partial",
   "theorems": [
    "C89_refuted"
   ],
   "note": "False with exact numerical routines: for A_0, A_1, A_2, anticommuting with A_0+A_1+A_2 and invariant under 0<->2, nothing is found although A_0-2A_1+A_2 has both symmetries. C88 proves the claim with orthogonalization=True or without Transformations."
  },
  {
   "property": "C90",
   "status": "partial",
   "theorems": [
    "C90_empty_partial",
    "C90_empty_refuted"
   ],
   "note": "False: two or more symmetries raise IndexError, for every empty basis; at most one symmetry is right."
  },
  {
   "property": "C91",
   "status": "partial",
   "theorems": [
    "C91_again",
    "C91_positions_refuted"
   ],
   "note": "The new lists are exactly those of a fresh call, appended; that entry k belongs to symmetry k is refuted."
  },
  {
   "property": "C92",
   "status": "proved",
   "theorems": [
    "C92_complement",
    "C92_order"
   ],
   "note": "For all states, splits, orders of labels and orders of the entropy from 1 on (order 1 raises on both sides)."
  },
  {
   "property": "C93",
   "status": "proved",
   "theorems": [
    "C93_bounds",
    "C93_decreasing"
   ],
   "note": "For all normalised states with Gaussian rational amplitudes and all orders from 2 on; logarithms are real numbers without rounding."
  },
  {
   "property": "C94",
   "status": "partial",
   "theorems": [
    "C94_spectrum",
    "C94_small",
    "C94_order_zero_refuted"
   ],
   "note": "Proved for orders from 2 on. Order 1 raises ZeroDivisionError; order 0 gives the logarithm of the dimension and not of the rank (refuted by a product state), and negative orders ignore the matrix."
  },
  {
   "property": "C95",
   "status": "proved",
   "theorems": [
    "C95_greedy",
    "C95_norm"
   ],
   "note": "For all inputs without transformations; real numbers are exact; the solver is any function that returns real unit eigenvectors of real symmetric matrices. target_operator/target_fidelity, previous_basis and printing are not modelled."
  },
  {
   "property": "C96",
   "status": "proved",
   "theorems": [
    "C96_least"
   ],
   "note": "For exact eigensolvers (the smallest eigenvalue is first, or among those returned by the sparse solver) and a correct argsort."
  },
  {
   "property": "C97",
   "status": "partial",
   "theorems": [
    "C97_refuted"
   ],
   "note": "False: the penalty 10^10 of the part that is not symmetric stays in the number. Witness: Z_1 is returned with 2*10^10 although it commutes with H = Z_1."
  },
  {
   "property": "C98",
   "status": "partial",
   "theorems": [
    "C98_refuted"
   ],
   "note": "False: the numbers are recomputed without the penalty and sorted. Witness: orth_ops = [Z_1] and Z_1 is returned."
  },
  {
   "property": "C99",
   "status": "partial",
   "theorems": [
    "C99_refuted"
   ],
   "note": "False: the cache marks a string as explored after the commutators with the first operator. Witness: com_ops = [Z_2, X_1] returns Z_1 although X_1 commutes with both. For strings shared with the first operator nothing is claimed."
  },
  {
   "property": "C100",
   "status": "proved",
   "theorems": [
    "C100_search"
   ],
   "note": "For one com_op and no transformations; real numbers are exact; the solver is any function that returns real unit eigenvectors."
  },
  {
   "property": "C101",
   "status": "proved",
   "theorems": [
    "C101_closed"
   ],
   "note": "No hypothesis on the solver. For runs that return; nothing is claimed about transformations whose closure does not end (the model then runs out of fuel)."
  },
  {
   "property": "C102",
   "status": "proved",
   "theorems": [
    "C102_fidelity"
   ],
   "note": "For orthonormal vectors. Exact arithmetic; the not-a-number entries after a division by zero are None."
  },
  {
   "property": "C103",
   "status": "proved",
   "theorems": [
    "C103_target",
    "C103_search"
   ],
   "note": "Exact arithmetic. A run whose target has no overlap with the basis is an error in the model, the code goes on with not-a-number entries. C103_search assumes a solver that finds the smallest eigenvalue."
  },
  {
   "property": "C104",
   "status": "partial",
   "theorems": [
    "C104_refuted"
   ],
   "note": "False: for fewer than 20 strings all eigenvectors are used already, so increasing num_vecs repeats the same iteration forever. Witness: H = 2 Z_1 + X_2, target X_1 + Z_2, target_fidelity 0.9. Without target_fidelity the search ends (C103)."
  },
  {
   "property": "C105",
   "status": "proved",
   "theorems": [
    "C105_simple",
    "C105_selected_ci",
    "C105_greedy_simple",
    "C105_sweep",
    "C105_sweep_raises"
   ],
   "note": "The name liouvillian_matrix is not imported, and the sparse matrix of _explore is used as the dictionary of structure constants. That indexing a sparse matrix by an OperatorString raises IndexError is part of the model. C105_sweep_raises is without pre_filter_fun."
  },
  {
   "property": "C106",
   "status": "proved",
   "theorems": [
    "C106_many",
    "C106_list"
   ],
   "note": "Exact arithmetic; explored_data is None. That comparing a number with a list raises TypeError is part of the model."
  },
  {
   "property": "C107",
   "status": "partial",
   "theorems": [
    "C107_refuted"
   ],
   "note": "Refuted: from X_1 + Z_1 and Z_1 with H = Z_1 both recorded operators are Z_1, although X_1 is in the basis of the first (the reason is that of C98)."
  },
  {
   "property": "C108",
   "status": "proved",
   "theorems": [
    "C108_many2"
   ],
   "note": "Exact arithmetic; explored_data is None; the solver returns orthonormal vectors."
  },
  {
   "property": "C109",
   "status": "partial",
   "theorems": [
    "C109_refuted",
    "C109_penalty_partial"
   ],
   "note": "Refuted: the numbers are computed again with the matrix that contains the penalty, so that for H = Z_1, the operator Z_1 and orth_ops [Z_1] the number 1e10 is recorded although the commutator is zero. C109_penalty_partial says what is recorded instead: the squared norm of the commutator and 1e10 times the sum of the squared overlaps."
  },
  {
   "property": "C110",
   "status": "proved",
   "theorems": [
    "C110_lie_operators",
    "C110_exact",
    "C110_empty"
   ],
   "note": "Exact arithmetic. The commutators are exact apart from terms below 1e-16, which the code leaves out."
  },
  {
   "property": "C111",
   "status": "partial",
   "theorems": [
    "C111_refuted"
   ],
   "note": "Refuted: coefficients up to tol are left out of the vectors but stay in the Operators. For 1/20 X_1, Y_1, Z_1 and tol=1/10 the result contains 1/20 X_1 and X_1. C110_lie_operators proves the claim if every coefficient is zero or above tol."
  },
  {
   "property": "C112",
   "status": "proved",
   "theorems": [
    "C112_pauli",
    "C112_any_type",
    "C112_general"
   ],
   "note": "Exact arithmetic; the eigensolvers and argsort are oracles with the stated specification (exact on the matrix of this Operator, if it is Hermitian). Fermion strings have at most 51 different orbitals (or equal labels), as in C40."
  },
  {
   "property": "C113",
   "status": "partial",
   "theorems": [
    "C113_shifted_refuted"
   ],
   "note": "Refuted: convert leaves out the identity, so that the levels of Fermion operators are shifted. c^+_0 c_0 is a projector (eigenvalues 0 and 1), but with every exact solver -1/2 and 1/2 are returned. C112_any_type: the levels are right up to a common shift."
  },
  {
   "property": "C114",
   "status": "proved",
   "theorems": [
    "C114_modes",
    "C114_lowest",
    "C114_refused"
   ],
   "note": "Exact arithmetic; the eigensolvers are oracles with the stated specification. The Operator is the one converted to Fermions (C39-C43: up to a multiple of the identity the given one)."
  },
  {
   "property": "C115",
   "status": "proved",
   "theorems": [
    "C115_ladder",
    "C115_modes",
    "C115_num_vecs"
   ],
   "note": "Exact arithmetic; the eigensolver and argsort are oracles with the stated specification. Note that gamma_k raises the energy: it is the creation operator of the quasiparticle (the code takes the eigenvectors of the negative eigenvalues)."
  },
  {
   "property": "C116",
   "status": "partial",
   "theorems": [
    "C116_zero_modes_refuted",
    "C116_num_vecs_refuted"
   ],
   "note": "Refuted: for the Kitaev chain of two sites (energies 2 and 0) an exact solver may return gamma = (c_0 - c^+_0)/sqrt(2), whose square is -1/2; and with num_vecs and sigma the eigenvectors may be those of positive eigenvalues, the energies are made positive by abs, and gamma lowers the energy. C115 gives what holds otherwise."
  },
  {
   "property": "C117",
   "status": "proved",
   "theorems": [
    "C117_ladder_operators"
   ],
   "note": "Exact arithmetic; eigh and argsort are oracles with the stated specification; sparsification=False."
  },
  {
   "property": "C118",
   "status": "partial",
   "theorems": [
    "C118_sound_refuted"
   ],
   "note": "Refuted: for H = iA_0A_1 + iA_1A_2 + iA_2A_3 + iA_2A_4 + iA_2A_5 and the Basis A_0, A_1, A_2 it returns (iA_0 + A_1)/sqrt(2) with the eigenvalue 2, whose commutator with H has the component A_2. C117 gives what holds for a closed Basis."
  },
  {
   "property": "C119",
   "status": "partial",
   "theorems": [
    "C119_complete_refuted"
   ],
   "note": "Refuted for every oracle with results of the right size: iA_0 + A_1 is a ladder operator of iA_0A_1 + iA_2A_3 in the Basis A_0, A_1, A_2, but nothing is returned, because only as many right singular vectors are looked at as there are singular values. C117 gives what holds for a closed Basis."
  },
  {
   "property": "C120",
   "status": "proved",
   "theorems": [
    "C120_inverse"
   ],
   "note": "Exact arithmetic; svd and pinv are oracles with the stated specification; sparsification=False (the default is True; sparsify itself is C80-C81). The normalisation and the removal of small entries of the particular solution are not modelled."
  },
  {
   "property": "C121",
   "status": "partial",
   "theorems": [
    "C121_null_refuted",
    "C121_particular_refuted"
   ],
   "note": "Refuted for every oracle with results of the right size: for R = Z_1 and the Basis Z_1, Z_2, X_1 at most one null vector is returned, but Z_1 and Z_2 both commute; for R = Y_1 + Z_1 and the Basis X_1 a particular solution is returned, but there is none. C120 gives what holds."
  },
  {
   "property": "C122",
   "status": "proved",
   "theorems": [
    "C122_l_matrix",
    "C122_missing",
    "C122_com_matrix",
    "C122_kernel"
   ],
   "note": "Exact arithmetic. This is the documented dictionary input; the callers give a matrix instead (C105)."
  },
  {
   "property": "C123",
   "status": "partial",
   "theorems": [
    "C123_shape_refuted",
    "C123_zero_refuted"
   ],
   "note": "Refuted: no shape is given to csr_matrix. For the Basis X_1, Z_1 and the Operator Z_1 the matrices have one column; if every string commutes with the Operator a ValueError is raised. C122 gives what holds."
  }
 ]
}