{"id": "C01", "title": "Pauli and Majorana strings denote Hermitian operators that square to one", "statement": "An OperatorString built from distinct labels with the default prefactor and op_type 'Pauli' or 'Majorana' denotes an operator that equals its own adjoint and whose square is the identity.", "quantifier": "for every list of operators of the type, every list of distinct integer labels of the same length, and every *-algebra containing operators that satisfy the Pauli (resp. Majorana) relations", "why_tests_cant": "a test checks a few strings; the i prefactor depends on the parity of n(n-1)/2 for unbounded n", "anchors": ["qosy/operatorstring.py:OperatorString.__init__", "qosy/operatorstring.py:opstring"]}
{"id": "C02", "title": "Every accepted Pauli/Majorana string is Hermitian", "statement": "Whatever prefactor the caller passes, if the constructor (or opstring) accepts a Pauli or Majorana string then the string denotes a Hermitian operator.", "quantifier": "for every operator list, label list, op_type and prefactor accepted by the constructor", "why_tests_cant": "needs every accepted prefactor/string combination; the offending ones are not the ones a test author writes", "anchors": ["qosy/operatorstring.py:OperatorString.__init__", "qosy/operatorstring.py:opstring"]}
{"id": "C03", "title": "Equal strings are interchangeable as dictionary keys", "statement": "If two OperatorStrings compare equal with == then they have the same hash, so that one can be used to look up the other in a Basis, set or dict.", "quantifier": "for every pair of OperatorStrings the constructor can produce", "why_tests_cant": "a statement about all pairs; hash disagreement only shows for particular spellings of the prefactor", "anchors": ["qosy/operatorstring.py:OperatorString.__eq__", "qosy/operatorstring.py:OperatorString.__hash__", "qosy/operatorstring.py:opstring"]}
{"id": "C04", "title": "Printing and re-parsing an operator string returns the same string", "statement": "opstring(str(S)) is accepted and gives back a string equal to S (same operators, labels, type and prefactor value), for every non-identity string S; ideally it is also the same dictionary key.", "quantifier": "for every well-formed non-identity string with any integer labels (including negative and multi-digit labels)", "why_tests_cant": "labels are unbounded integers and lists are unbounded; a finite set of round trips proves nothing", "anchors": ["qosy/operatorstring.py:opstring", "qosy/operatorstring.py:OperatorString.__str__"]}
{"id": "C05", "title": "The constructor rejects operator and label lists of different length", "statement": "OperatorString(ops, labels, op_type) raises ValueError whenever len(ops) != len(labels).", "quantifier": "for all operator lists and label lists of different length", "why_tests_cant": "quantifies over all mismatched inputs; no test covers the error path", "anchors": ["qosy/operatorstring.py:OperatorString.__init__"]}
{"id": "C06", "title": "opstring only accepts strings whose operators all belong to the deduced type", "statement": "If opstring(name) returns a string of type T then every orbital operator in it is a valid operator of type T.", "quantifier": "for every input text", "why_tests_cant": "quantifies over all texts; only the last operator of the text is inspected by the code", "anchors": ["qosy/operatorstring.py:opstring"]}
{"id": "C07", "title": "The product of two operator strings is exact", "statement": "product(A, B) = (c, C) with A*B = c*C as operators, for two Pauli strings or two Majorana strings.", "quantifier": "for all strings A, B of the same type with distinct labels inside each string (any overlap between them, any order), and all representations of the Pauli/Majorana relations", "why_tests_cant": "the sign comes from sorting interleaved label lists of unbounded length; tests check a handful of products", "anchors": ["qosy/algebra.py:product", "qosy/algebra.py:_operation_opstring", "qosy/config.py:PRODUCT_DICT"]}
{"id": "C08", "title": "The commutator of two operator strings is exact", "statement": "commutator(A, B) = (c, C) with A*B - B*A = c*C, and (0, None) is returned exactly when A*B = B*A.", "quantifier": "for all strings of the same type with distinct labels and all representations (the 'exactly when' in every representation where 2 is not 0, e.g. the qubit representation)", "why_tests_cant": "unbounded strings; sign and doubling logic; conj trick for the reversed product", "anchors": ["qosy/algebra.py:commutator", "qosy/algebra.py:_operation_opstring"]}
{"id": "C09", "title": "The anticommutator of two operator strings is exact", "statement": "anticommutator(A, B) = (c, C) with A*B + B*A = c*C, and (0, None) is returned exactly when A*B = -B*A.", "quantifier": "for all strings of the same type with distinct labels and all representations", "why_tests_cant": "same as for the commutator", "anchors": ["qosy/algebra.py:anticommutator", "qosy/algebra.py:_operation_opstring"]}
{"id": "C10", "title": "Two strings either commute or anticommute", "statement": "For two strings exactly one of commutator(A,B), anticommutator(A,B) is the zero result (0, None), and the other one is twice the product.", "quantifier": "for all pairs of well-formed strings of the same Pauli or Majorana type", "why_tests_cant": "universally quantified relation between three API functions", "anchors": ["qosy/algebra.py:product", "qosy/algebra.py:commutator", "qosy/algebra.py:anticommutator"]}
{"id": "C11", "title": "Results of string operations are again well formed", "statement": "The string returned by product/commutator/anticommutator has strictly increasing labels, contains only labels of the inputs, only operators of the type, and is Hermitian (default prefactor); no exception is raised.", "quantifier": "for all pairs of well-formed strings of the same type", "why_tests_cant": "closure invariant: needed so operations can be chained any number of times", "anchors": ["qosy/algebra.py:_operation_opstring"]}
{"id": "C12", "title": "Product of strings is associative and the commutator satisfies Jacobi", "statement": "Folding product over three strings gives the same coefficient and string for both bracketings; antisymmetry and the Jacobi identity hold for commutator on Operators.", "quantifier": "for all triples of well-formed strings / Operators", "why_tests_cant": "algebraic laws over all triples", "anchors": ["qosy/algebra.py:product", "qosy/algebra.py:commutator"]}
{"id": "C13", "title": "String operations reject operands of different type", "statement": "product/commutator/anticommutator of two OperatorStrings of different op_type raises an error rather than returning a string that mixes types.", "quantifier": "for all pairs of strings with different op_type", "why_tests_cant": "quantifies over all pairs; the type of the second operand is never inspected", "anchors": ["qosy/algebra.py:_operation_opstring"]}
{"id": "C14", "title": "Operator-level product, commutator and anticommutator are bilinear extensions", "statement": "product/commutator/anticommutator of two Operators denotes the operator-algebra product/commutator/anticommutator, up to terms the code drops because the product of their coefficients is below 1e-16 in absolute value.", "quantifier": "for all Operators of the same type with any number of terms and any (Gaussian rational) coefficients", "why_tests_cant": "unbounded sums, collection of equal strings in a dictionary", "anchors": ["qosy/algebra.py:_operation_operator", "qosy/algebra.py:product", "qosy/algebra.py:commutator", "qosy/algebra.py:anticommutator"]}
{"id": "C15", "title": "Structure constants reproduce commutators", "statement": "structure_constants(A, B, return_extended_basis=True) returns matrices N_b and an extended basis C such that [S_a, S_b] = sum_c (N_b)_{ca} S_c for all a, b; likewise for the product and anticommutator operation modes. C lists exactly strings that occur as a result.", "quantifier": "for all bases A and B of the same type", "why_tests_cant": "unbounded bases; growing extended basis whose size fixes the matrix shape", "anchors": ["qosy/algebra.py:structure_constants"]}
{"id": "C16", "title": "The Liouvillian matrix represents the commutator map", "statement": "liouvillian_matrix(basis, O) returns L and an extended basis with [S_a, O] = sum_c L_{ca} S_c for every S_a in the basis.", "quantifier": "for all bases and Operators of the same type", "why_tests_cant": "linear-map identity over unbounded bases", "anchors": ["qosy/algebra.py:liouvillian_matrix", "qosy/algebra.py:_liouvillian_matrix_opstrings", "qosy/algebra.py:_liouvillian_matrix_operators"]}
{"id": "C17", "title": "Null vectors of the commutant matrix are exactly the commuting operators", "statement": "For a vector v over the basis, (commutant matrix) v = 0 if and only if sum_a v_a S_a commutes with O. Hence any column that commuting_operators returns with exactly zero eigenvalue is a conserved quantity and nothing in the basis span is missed.", "quantifier": "for all bases of Pauli or Majorana strings, all Operators O, all coefficient vectors v", "why_tests_cant": "an if-and-only-if over all vectors; needs positivity and linear independence of strings", "anchors": ["qosy/algebra.py:commutant_matrix", "qosy/core.py:commuting_operators"]}
{"id": "C18", "title": "generate_lie_algebra terminates and returns the smallest commutator-closed basis", "statement": "For a Basis argument the call returns after finitely many steps; the result contains the input strings, contains the string of every non-zero commutator of two of its members, and every member is obtained from the inputs by nested commutators.", "quantifier": "for every Basis of well-formed Pauli or Majorana strings", "why_tests_cant": "termination and closure of a loop over a list that grows while it is traversed", "anchors": ["qosy/algebra.py:generate_lie_algebra"]}
{"id": "C19", "title": "Basis lookup is a bijection", "statement": "basis.index(basis[i]) = i for every valid i, S in basis iff S is one of the listed strings, len counts them, and basis[basis.index(S)] is S.", "quantifier": "for every Basis built by any sequence of constructor, + and += calls", "why_tests_cant": "invariant over arbitrary call histories", "anchors": ["qosy/basis.py:Basis.index", "qosy/basis.py:Basis.__contains__", "qosy/basis.py:Basis.__getitem__", "qosy/basis.py:Basis.__iadd__", "qosy/basis.py:Basis.__add__"]}
{"id": "C20", "title": "Basis + and += append only the missing strings, in order", "statement": "basis + other and basis += other give the same Basis; the old strings keep their positions; the new ones are exactly the strings of other not already present, in order of first appearance; adding is idempotent and associative.", "quantifier": "for all bases, strings and operators on the right hand side", "why_tests_cant": "ordered-set laws over all inputs", "anchors": ["qosy/basis.py:Basis.__add__", "qosy/basis.py:Basis.__iadd__"]}
{"id": "C21", "title": "Operator arithmetic is vector-space arithmetic", "statement": "+, -, unary -, multiplication by scalars on Operators change the coefficient of every string exactly as in a vector space (coefficients padded with zeros on strings absent from one side); different op_types are rejected.", "quantifier": "for all Operators and all scalars", "why_tests_cant": "index bookkeeping over unbounded, differently ordered bases", "anchors": ["qosy/basis.py:Operator.__add__", "qosy/basis.py:Operator.__iadd__", "qosy/basis.py:Operator.__sub__", "qosy/basis.py:Operator.__mul__", "qosy/basis.py:Operator.__neg__"]}
{"id": "C22", "title": "Updating an Operator in place does not affect other objects", "statement": "After op += other (or op -= other), any other Operator or Basis object held by the user still denotes the same thing, and len(coeffs) == len(basis) holds for all Operators.", "quantifier": "for all histories of constructor and in-place operations on Operators, including Operators built from the same Basis object", "why_tests_cant": "aliasing: depends on object histories, not on a single call", "anchors": ["qosy/basis.py:Operator.__init__", "qosy/basis.py:Operator.__iadd__", "qosy/basis.py:Basis.__iadd__"]}
{"id": "C23", "title": "remove_zeros and to_vector keep exactly the right coefficients", "statement": "remove_zeros(tol) keeps exactly the terms with |coefficient| > tol, in order; to_vector(basis) returns the coefficient of each basis string and raises KeyError if a string of the Operator is missing.", "quantifier": "for all Operators, tolerances and bases", "why_tests_cant": "universally quantified over operators and bases", "anchors": ["qosy/basis.py:Operator.remove_zeros", "qosy/basis.py:Operator.to_vector"]}
{"id": "C24", "title": "cluster_basis enumerates exactly the strings on at most k orbitals", "statement": "cluster_basis(k, labels, 'Pauli'|'Majorana') contains exactly one copy of every string with strictly increasing labels among the given ones whose number of labels is allowed by k (the identity only on request); its length is sum_m binom(n,m) 3^m.", "quantifier": "for all k (int or list), all sets of labels", "why_tests_cant": "combinatorial completeness for unbounded n and k", "anchors": ["qosy/basis.py:cluster_basis"]}
{"id": "C25", "title": "Fermion cluster basis spans the conversion of the Majorana cluster basis", "statement": "Converting any string of cluster_basis(k, labels, 'Majorana') to Fermion strings only produces strings of cluster_basis(k, labels, 'Fermion'), so conversion_matrix between the two bases succeeds.", "quantifier": "for all k and label sets", "why_tests_cant": "relates two enumerations for all k; tests stop at two orbitals", "anchors": ["qosy/basis.py:cluster_basis", "qosy/conversion.py:_convert_majorana_string", "qosy/conversion.py:conversion_matrix"]}
{"id": "C26", "title": "distance_basis enumerates exactly the strings of bounded range", "statement": "distance_basis(lattice, k, R, type) contains exactly one copy of each string with at most k orbitals (or a number in the list k), all allowed and pairwise within distance R.", "quantifier": "for all lattices (symmetric distance functions), k, R and allowed sets", "why_tests_cant": "relies on maximal-clique enumeration over arbitrary graphs and on deduplication of overlapping clusters", "anchors": ["qosy/basis.py:distance_basis", "qosy/tools.py:maximal_cliques"]}
{"id": "C27", "title": "distance_basis honours include_identity", "statement": "distance_basis(..., include_identity=True) contains the identity string.", "quantifier": "for all lattices, k, R and types", "why_tests_cant": "universal statement about an ignored argument", "anchors": ["qosy/basis.py:distance_basis"]}
{"id": "C28", "title": "sort_sign sorts and returns the parity", "statement": "sort_sign(v) returns the ascending rearrangement of v and the sign (-1)^(number of inversions), for both methods; equal entries are not swapped.", "quantifier": "for all lists of integers", "why_tests_cant": "parity of a permutation for unbounded lists", "anchors": ["qosy/tools.py:sort_sign"]}
{"id": "C29", "title": "sign is the parity of a permutation", "statement": "sign(p) computed from the cycles equals (-1)^(number of inversions of p); it is multiplicative under composition, and equals what sort_sign computes.", "quantifier": "for all permutations of {0..n-1} and all n", "why_tests_cant": "equivalence of cycle count parity and inversion parity needs a proof by induction", "anchors": ["qosy/tools.py:sign", "qosy/tools.py:sort_sign", "qosy/tools.py:compose_permutations"]}
{"id": "C30", "title": "compare is a total order", "statement": "compare is antisymmetric, transitive, total, orders by length first and then lexicographically, and returns 0 exactly for equal lists.", "quantifier": "for all lists of integers", "why_tests_cant": "order axioms over all triples", "anchors": ["qosy/tools.py:compare"]}
{"id": "C31", "title": "maximal_cliques returns every maximal clique exactly once", "statement": "For a symmetric, irreflexive adjacency list the function terminates and returns each maximal clique exactly once and nothing else, whatever order Python iterates over sets.", "quantifier": "for all undirected graphs and all set-iteration orders", "why_tests_cant": "unbounded graphs; nondeterministic set iteration order", "anchors": ["qosy/tools.py:maximal_cliques"]}
{"id": "C32", "title": "connected_components partitions the graph by reachability", "statement": "Both modes ('DFS', 'BFS') terminate and return a partition of the nodes in which two nodes share a block iff they are connected by a path.", "quantifier": "for all undirected adjacency lists", "why_tests_cant": "reachability over unbounded graphs", "anchors": ["qosy/tools.py:connected_components"]}
{"id": "C33", "title": "remove_duplicates keeps one representative per class", "statement": "The result contains the first representative of each equivalence class, no two equivalent elements, and every input element is equivalent to some element of the result.", "quantifier": "for all lists and all equivalence relations", "why_tests_cant": "universal over relations; sequential scanning with early break", "anchors": ["qosy/tools.py:remove_duplicates"]}
{"id": "C34", "title": "swap exchanges two names and is an involution", "statement": "swap(s, a, b) exchanges all occurrences of a and b; applying it twice gives back s.", "quantifier": "for all strings s and names a, b", "why_tests_cant": "string rewriting with temporary parentheses; counterexamples need inputs with parentheses or overlapping names", "anchors": ["qosy/tools.py:swap"]}
{"id": "C35", "title": "replace substitutes simultaneously, longest key first", "statement": "replace(s, d) scans s once from the left, at each position substitutes the longest matching key, and never rescans the substituted text.", "quantifier": "for all strings and non-empty dictionaries with non-empty keys", "why_tests_cant": "universal over texts and dictionaries", "anchors": ["qosy/tools.py:replace"]}
{"id": "C36", "title": "compose_permutations is function composition", "statement": "compose_permutations(p, q)[i] = p[q[i]]; it is associative, has arange(n) as identity, and maps permutations to permutations.", "quantifier": "for all permutations of the same size", "why_tests_cant": "group laws for all n", "anchors": ["qosy/tools.py:compose_permutations"]}
{"id": "C37", "title": "gram_schmidt returns an orthonormal basis of the column span", "statement": "The returned columns are orthonormal and span the same space as the columns of the input matrix (exact arithmetic, non-zero first column, tol small enough to reject only dependent columns).", "quantifier": "for all matrices of all shapes", "why_tests_cant": "inductive invariant over columns", "anchors": ["qosy/tools.py:gram_schmidt"]}
{"id": "C38", "title": "argsort sorts a list", "statement": "argsort(l) returns a permutation of the indices that sorts l ascending; with a comparison function it sorts l by that comparison.", "quantifier": "for all lists and comparison functions", "why_tests_cant": "universal over comparison functions; the comparison receives indices, not elements", "anchors": ["qosy/tools.py:argsort", "qosy/tools.py:cmp_to_key"]}
{"id": "C39", "title": "Majorana to Fermion conversion preserves the operator", "statement": "convert(S, 'Fermion', include_identity=True) denotes the same operator as the Majorana string S; without include_identity it differs by a multiple of the identity only.", "quantifier": "for all Majorana strings with distinct labels and every representation of the canonical anticommutation relations", "why_tests_cant": "2^n term expansion, normal ordering signs, Hermitian-conjugate pairing", "anchors": ["qosy/conversion.py:convert", "qosy/conversion.py:_convert_majorana_string"]}
{"id": "C40", "title": "Fermion to Majorana conversion preserves the operator", "statement": "convert(S, 'Majorana', include_identity=True) denotes the same Hermitian operator as the Fermion string S (including the implicit + h.c.); without include_identity it differs by a multiple of the identity.", "quantifier": "for all Fermion strings c+_{i1}..c+_{im} c_{jl}..c_{j1} with distinct creation labels and distinct annihilation labels", "why_tests_cant": "same as above in the reverse direction; cancellation of anti-Hermitian terms", "anchors": ["qosy/conversion.py:convert", "qosy/conversion.py:_convert_fermion_string"]}
{"id": "C41", "title": "Jordan-Wigner conversion preserves the operator", "statement": "convert of a Pauli string to Majorana (and of a Majorana string to Pauli) denotes the same operator under a_j = Z_0..Z_{j-1} X_j, b_j = Z_0..Z_{j-1} Y_j, d_j = Z_j.", "quantifier": "for all strings with distinct non-negative labels", "why_tests_cant": "Jordan-Wigner strings of unbounded length and overlap", "anchors": ["qosy/conversion.py:convert", "qosy/conversion.py:_jordan_wigner"]}
{"id": "C42", "title": "Conversions round-trip", "statement": "Pauli->Majorana->Pauli and Majorana->Pauli->Majorana give back the string with coefficient one; Majorana->Fermion->Majorana gives back the same operator.", "quantifier": "for all well-formed strings with non-negative labels", "why_tests_cant": "composition of two expansions, needs injectivity of the representation", "anchors": ["qosy/conversion.py:convert"]}
{"id": "C43", "title": "convert on Operators is linear", "statement": "convert(sum_a x_a S_a) = sum_a x_a convert(S_a), coefficient by coefficient; converting to the same type is the identity; Fermion<->Pauli goes through Majorana.", "quantifier": "for all Operators with any number of terms", "why_tests_cant": "unbounded sums", "anchors": ["qosy/conversion.py:_convert_operator", "qosy/conversion.py:convert"]}
{"id": "C44", "title": "conversion_matrix represents convert", "statement": "Column a of conversion_matrix(B, B') holds the coefficients of convert(S_a) (without the identity) in B', those of modulus at most tol replaced by zero; it raises KeyError when a produced string is missing and works for every (also empty) basis_from.", "quantifier": "for all pairs of bases", "why_tests_cant": "universal over bases; error paths", "anchors": ["qosy/conversion.py:conversion_matrix"]}
{"id": "C45", "title": "convert is total on identity strings", "statement": "convert never fails on a valid operator string, in particular on the identity string of each type.", "quantifier": "for all source and target types, with and without include_identity", "why_tests_cant": "error paths for the empty string", "anchors": ["qosy/conversion.py:convert", "qosy/conversion.py:_convert_fermion_string"]}
{"id": "C46", "title": "label_permutation acts as an algebra automorphism", "statement": "Applying a label permutation p to a string gives the operator obtained by renaming every orbital l to p[l] (with the fermionic reordering sign); it commutes with product and commutator and preserves norms; p then q equals the composed permutation.", "quantifier": "for all permutations and strings with labels in range", "why_tests_cant": "sign of reordering for unbounded strings", "anchors": ["qosy/transformation.py:label_permutation", "qosy/transformation.py:_permutation_rule", "qosy/transformation.py:Transformation.apply"]}
{"id": "C47", "title": "time_reversal acts as an antiunitary automorphism", "statement": "Spinless time reversal sends a_j to a_j, b_j to -b_j, d_j to d_j (Pauli operators to minus themselves) and conjugates scalars, consistently on all strings; it is an involution; the spinful version sends a_up to a_dn, a_dn to -a_up, b_up to -b_dn, b_dn to b_up.", "quantifier": "for all Pauli and Majorana strings and every antilinear multiplicative map with the stated action on generators", "why_tests_cant": "sign counting over unbounded strings with the hidden i prefactor", "anchors": ["qosy/transformation.py:time_reversal", "qosy/transformation.py:_time_reversal_rule"]}
{"id": "C48", "title": "particle_hole acts as an automorphism", "statement": "particle_hole sends a_j to a_j, b_j to -b_j, d_j to -d_j, multiplicatively, and is an involution.", "quantifier": "for all Majorana strings", "why_tests_cant": "sign counting over unbounded strings", "anchors": ["qosy/transformation.py:particle_hole", "qosy/transformation.py:_particle_hole_rule"]}
{"id": "C49", "title": "Spin parity assigns the right sign", "statement": "spin_parity_symmetry multiplies a Majorana string by (-1)^(number of A/B operators on down orbitals), i.e. conjugation by the down-spin fermion parity.", "quantifier": "for all Majorana strings and all sets of down-orbital labels", "why_tests_cant": "automorphism property over unbounded strings", "anchors": ["qosy/transformation.py:_sz_rule", "qosy/transformation.py:spin_parity_symmetry"]}
{"id": "C50", "title": "Transformation products and powers compose", "statement": "(T1*T2).apply(S) = T1.apply(T2.apply(S)); T**n applies T n times for n >= 1; for permutations p, p**n is the n-th iterate.", "quantifier": "for all transformations, exponents and strings", "why_tests_cant": "induction over n, composition through Operators", "anchors": ["qosy/transformation.py:Transformation.__mul__", "qosy/transformation.py:Transformation.__pow__", "qosy/transformation.py:_product_rule"]}
{"id": "C51", "title": "Non-positive powers are handled as documented", "statement": "T**n is accepted for every non-negative integer n (T**0 being the identity) and rejected for negative n.", "quantifier": "for all transformations and integers n", "why_tests_cant": "error path for n = 0", "anchors": ["qosy/transformation.py:Transformation.__pow__"]}
{"id": "C52", "title": "symmetry_matrix represents the transformation and invariant_operators is sound", "statement": "Column a of symmetry_matrix(basis, T) holds the coefficients of T(S_a) restricted to the basis; any vector in the +1 (-1) eigenspace of its Hermitian part is an operator with T(O) = O (T(O) = -O), even if the basis is not closed under T.", "quantifier": "for all bases, all norm-preserving monomial transformations, all vectors", "why_tests_cant": "spectral statement about all vectors; dropping strings outside the basis must not create false symmetries", "anchors": ["qosy/transformation.py:symmetry_matrix", "qosy/core.py:invariant_operators"]}
{"id": "C53", "title": "symmetrize_basis returns operators invariant under the whole generated group", "statement": "Every operator returned by symmetrize_basis(basis, generators) is unchanged by each generator.", "quantifier": "for all bases and all lists of permutation generators", "why_tests_cant": "needs the group closure loop to be complete for every generating set", "anchors": ["qosy/symmetrization.py:symmetrize_basis", "qosy/symmetrization.py:_symmetrize_opstring"]}
{"id": "C54", "title": "to_matrix is a faithful matrix representation", "statement": "to_matrix(S, n) is Hermitian for Pauli strings, to_matrix of a product is the matrix product, to_matrix is linear, and label l acts on bit n-1-l of the configuration.", "quantifier": "for all n, all Pauli strings and Operators with labels below n", "why_tests_cant": "2^n dimensional statement for all n", "anchors": ["qosy/diagonalization.py:to_matrix", "qosy/diagonalization.py:_apply_opstring"]}
{"id": "C55", "title": "to_vector inverts to_matrix", "statement": "to_vector(to_matrix(O, n), basis, n) returns the coefficients of O in the basis: Pauli strings are orthonormal for the normalized Hilbert-Schmidt inner product.", "quantifier": "for all n, bases of Pauli strings and Operators in their span", "why_tests_cant": "orthogonality of 4^n strings for all n", "anchors": ["qosy/diagonalization.py:to_vector", "qosy/diagonalization.py:to_matrix"]}
{"id": "C56", "title": "to_operator reconstructs an operator from its matrix", "statement": "to_operator(to_matrix(O, n), basis) returns O.", "quantifier": "for all n, bases and operators", "why_tests_cant": "the function is never exercised", "anchors": ["qosy/diagonalization.py:to_operator"]}
{"id": "C57", "title": "apply_transformation on state vectors matches label_permutation on operators", "statement": "For a label permutation P, matrix(P(S)) applied to P|psi> equals P(matrix(S)|psi>).", "quantifier": "for all n, permutations, Pauli strings and state vectors", "why_tests_cant": "2^n amplitudes for all n; bit order conventions", "anchors": ["qosy/diagonalization.py:apply_transformation", "qosy/diagonalization.py:apply_transformation_conf"]}
{"id": "C58", "title": "reduced_density_matrix is the partial trace", "statement": "reduced_density_matrix(psi, labels, n) is Hermitian, its trace is the squared norm of psi, and tr(rho O) equals <psi| O tensor 1 |psi> for operators on the kept orbitals.", "quantifier": "for all n, all duplicate-free label lists, all state vectors", "why_tests_cant": "index permutation over 2^n amplitudes", "anchors": ["qosy/diagonalization.py:reduced_density_matrix", "qosy/diagonalization.py:_reshape_vector_subsystems"]}
{"id": "C59", "title": "Quadratic Hamiltonians are encoded faithfully in single-particle matrices", "statement": "The matrix A built by diagonalize_quadratic is real antisymmetric with operator = (i/4) sum_jk A_jk m_j m_k + const; the tight-binding matrix is Hermitian with operator = sum t_jk c+_j c_k.", "quantifier": "for all quadratic Operators on n orbitals", "why_tests_cant": "sum over all terms with sign bookkeeping for unbounded n", "anchors": ["qosy/diagonalization.py:diagonalize_quadratic", "qosy/diagonalization.py:diagonalize_quadratic_tightbinding"]}
{"id": "C60", "title": "Cached exploration equals direct computation", "statement": "The Liouvillian matrix returned by the caching exploration used in selected_ci equals the one computed from scratch, no matter which bases were explored earlier with the same operator.", "quantifier": "for all histories of explorations with one operator", "why_tests_cant": "depends on unbounded call histories of a mutable cache", "anchors": ["qosy/algorithms.py:_explore"]}
{"id": "C61", "title": "Cached exploration is correct for several operators", "statement": "Sharing the exploration cache between different operators (as selected_ci_greedy does for a list of operators) still returns the right Liouvillian matrix for each operator.", "quantifier": "for all histories of explorations with varying operators", "why_tests_cant": "history dependent; the single-operator tests cannot see it", "anchors": ["qosy/algorithms.py:_explore", "qosy/algorithms.py:selected_ci_greedy"]}
{"id": "C62", "title": "Truncation keeps the largest coefficients with their strings", "statement": "Truncating a basis/operator to m terms keeps the m strings of largest |coefficient| and each kept string keeps its coefficient.", "quantifier": "for all vectors and bases", "why_tests_cant": "index bookkeeping after reordering", "anchors": ["qosy/algorithms.py:_truncate_basis", "qosy/algorithms.py:_truncate_operator", "qosy/algorithms.py:selected_ci_greedy"]}
{"id": "C63", "title": "Lattice indexing is a bijection", "statement": "A Lattice has prod(num_cells) * (orbitals per unit cell) orbitals, index(position, name) of the i-th orbital is i, and unknown positions give -1.", "quantifier": "for all unit cells with distinct (position, orbital) entries in generic position and all lattice sizes", "why_tests_cant": "all lattice sizes; index arithmetic over cells", "anchors": ["qosy/lattice.py:Lattice.__init__", "qosy/lattice.py:Lattice.index"]}
{"id": "C64", "title": "Lattice indexing respects periodic boundaries", "statement": "With periodic boundaries, index of the position of the i-th orbital shifted by one full lattice period (in any of the periodic directions) is i.", "quantifier": "for all lattices whose positions print differently and have no coordinate below the tolerance, all orbitals and boundary directions", "why_tests_cant": "universal over sizes and directions", "anchors": ["qosy/lattice.py:Lattice.index"]}
{"id": "C65", "title": "Lattice distance is the minimal image distance", "statement": "distance is symmetric, non-negative, zero on equal positions, and on a periodic chain of N sites equals min(|i-j|, N-|i-j|).", "quantifier": "for all lattices, all positions in the cell", "why_tests_cant": "universal over sizes and positions", "anchors": ["qosy/lattice.py:Lattice.distance"]}
{"id": "C66", "title": "space_group_symmetry returns a valid permutation", "statement": "If space_group_symmetry(lattice, R, d) returns, its label map is a permutation of the orbitals that sends each orbital to one of the same name at the transformed position (mod periods).", "quantifier": "for all lattices, matrices R and displacements d", "why_tests_cant": "universal over R; singular R is not excluded by the error check", "anchors": ["qosy/transformation.py:space_group_symmetry"]}
{"id": "C67", "title": "symmetrize_lattice uses the whole point group", "statement": "The unit cell returned by symmetrize_lattice is symmetric under every given point-group generator and keeps every atom of the enlarged cell.", "quantifier": "for all lattices and generator lists", "why_tests_cant": "closure loop over generators of any order", "anchors": ["qosy/symmetrization.py:symmetrize_lattice", "qosy/symmetrization.py:_expand_lattice"]}
{"id": "C68", "title": "intersection returns the intersection of two subspaces", "statement": "For matrices A, B with orthonormal columns, the columns returned by intersection(A, B) lie in both column spaces, are mutually orthogonal, and span the intersection (given exact null vectors from the eigensolver).", "quantifier": "for all pairs of matrices with orthonormal columns", "why_tests_cant": "linear-algebra statement over all shapes with the eigensolver as an oracle", "anchors": ["qosy/tools.py:intersection"]}
{"id": "C69", "title": "spin_flip_symmetry exchanges spin partners", "statement": "If every atom with an orbital also has the orbital with up and dn exchanged in its name, spin_flip_symmetry(lattice, up, dn) returns the Transformation of the permutation that sends each orbital to the one with the exchanged name at the same place; applied twice it is the identity. If an orbital has no partner name in the unit cell, it raises ValueError.", "quantifier": "for all unit cells, sizes, boundary conditions and names", "why_tests_cant": "universal over unit cells and name substitutions", "anchors": ["qosy/transformation.py:spin_flip_symmetry", "qosy/tools.py:swap"]}
{"id": "C70", "title": "spin_parity_symmetry acts on the orbitals named dn", "statement": "spin_parity_symmetry(lattice, up, dn) multiplies a Majorana string by (-1) to the number of its a and b operators on orbitals whose name contains dn; this is conjugation by the fermion parity of those orbitals.", "quantifier": "for all lattices, names and Majorana strings", "why_tests_cant": "universal over strings, stated in every algebra with Majorana relations", "anchors": ["qosy/transformation.py:spin_parity_symmetry"]}
{"id": "C71", "title": "time_reversal with a lattice is spinful time reversal", "statement": "time_reversal((lattice, up, dn)) (or time_reversal(lattice) with Up, Dn) acts on every canonical Majorana string as the antilinear multiplicative map a_l -> +-a_f(l), b_l -> -+b_f(l), where f exchanges the orbitals named up and dn at the same place and the signs are those of spinful time reversal; any other argument but None raises ValueError.", "quantifier": "for all lattices whose atoms have both spin orbitals, and all strings", "why_tests_cant": "universal over strings and lattices, stated in every algebra with Majorana relations", "anchors": ["qosy/transformation.py:time_reversal"]}
{"id": "C72", "title": "Cubic lattices (chain, square, cubic) number, look up and measure on the torus", "statement": "In a cubic lattice of any dimension, size and boundary conditions, orbital k of the cell c has label rank(c)*q+k, index finds it from every integer image at most one period away (and returns -1 for other integer points), and distance is the torus distance, minimal over all images.", "quantifier": "for all dimensions, sizes, boundary conditions, orbital names and integer points", "why_tests_cant": "universal over dimension and size", "anchors": ["qosy/lattice.py:cubic", "qosy/lattice.py:chain", "qosy/lattice.py:square", "qosy/lattice.py:Lattice.index", "qosy/lattice.py:Lattice.distance"]}
{"id": "C73", "title": "What index means for any lattice", "statement": "For every lattice the orbitals are numbered cell by cell, atom by atom, name by name; index(p, name) is -1 exactly if no orbital of that name prints like p moved by at most one period in each periodic direction, else the label of such an orbital.", "quantifier": "for all lattices, positions and names, and every text function of positions", "why_tests_cant": "universal over lattices and over the printing function", "anchors": ["qosy/lattice.py:Lattice.__init__", "qosy/lattice.py:Lattice.index"]}
{"id": "C74", "title": "What distance means for any lattice", "statement": "distance(p, q) is the least Euclidean distance of q from p moved by at most one period in each periodic direction; it is symmetric, zero on equal positions, zero only for positions that differ by such periods, and labels stand for the positions of their orbitals.", "quantifier": "for all lattices and positions", "why_tests_cant": "universal over lattices and positions", "anchors": ["qosy/lattice.py:Lattice.distance"]}
{"id": "C75", "title": "Translations of periodic cubic lattices are permutations", "statement": "space_group_symmetry(lattice, identity, t) of a fully periodic cubic lattice with integer t of at most one period returns, and its label map is the permutation that moves every cell by t modulo the size.", "quantifier": "for all dimensions, sizes, orbital names and integer translations up to one period", "why_tests_cant": "universal over dimension, size and translation", "anchors": ["qosy/transformation.py:space_group_symmetry", "qosy/lattice.py:cubic"]}
{"id": "C76", "title": "diagonalize_quadratic returns energies and modes", "statement": "diagonalize_quadratic writes a quadratic Operator as sum_k e_k f_k^* f_k + constant_shift, where e_k >= 0 are the returned energies and the f_k, read off from the returned eigenvectors, are fermions; the returned Fermion eigenvectors form a unitary matrix.", "quantifier": "for all quadratic Operators with real coefficients on n orbitals and all real Schur forms", "why_tests_cant": "universal over Operators, sizes and the choice of Schur form made by the library", "anchors": ["qosy/diagonalization.py:diagonalize_quadratic"]}
{"id": "C77", "title": "sort_sign on numbers closer than its tolerance", "statement": "sort_sign(v, tol) of arbitrary real numbers returns v rearranged in ascending order with the sign of the rearrangement.", "quantifier": "for all lists of numbers and tolerances", "why_tests_cant": "failure needs chains of entries within the tolerance", "anchors": ["qosy/tools.py:sort_sign"]}
{"id": "C78", "title": "commuting_operators finds exactly the commuting operators", "statement": "commuting_operators(basis, O) returns coordinate vectors of operators whose commutator (anticommutator, product) with O is zero up to sqrt(tol) times their norm; every operator in the span of the basis that commutes with O is in the span of the returned vectors, provided the eigensolver is exact and no warning is issued; the kernel of the returned superoperator is exactly the space of commuting operators.", "quantifier": "for all Pauli and Majorana Bases, lists of Operators (linearly independent or not), Operators, modes, num_vecs and tolerances", "why_tests_cant": "universal over bases, operators and the vectors the eigensolver chooses in degenerate spaces", "anchors": ["qosy/core.py:commuting_operators", "qosy/algebra.py:liouvillian_matrix"]}
{"id": "C79", "title": "commuting_operators rejects unknown operation modes", "statement": "commuting_operators raises an error when operation_mode is none of 'commutator', 'anticommutator', 'product'.", "quantifier": "for all bases, Operators and other mode strings", "why_tests_cant": "universal over mode strings and operators", "anchors": ["qosy/core.py:commuting_operators", "qosy/algebra.py:_operation_opstring"]}
{"id": "C80", "title": "sparsify keeps the span of independent vectors", "statement": "sparsify(vectors, orthogonalize) of at least two linearly independent vectors returns as many unit vectors with the same span, ordered by their number of entries above tol, orthonormal if orthogonalize is set; a single vector is returned unchanged; more vectors than components raise an IndexError.", "quantifier": "for all complex vectors, dimensions, tolerances, LU decompositions and orders of equal numbers", "why_tests_cant": "universal over vectors, dimensions and pivot choices", "anchors": ["qosy/tools.py:sparsify", "qosy/tools.py:gram_schmidt"]}
{"id": "C81", "title": "sparsify always keeps the span", "statement": "The vectors returned by sparsify span the same space as its argument.", "quantifier": "for all vectors, including linearly dependent ones", "why_tests_cant": "universal over vectors", "anchors": ["qosy/tools.py:sparsify"]}
{"id": "C82", "title": "Noncumulative generator", "statement": "SymmetricOperatorGenerator.generate(mode='noncumulative') finds, for each k, exactly the space of operators in the span of the given basis that have the first k+1 of the added symmetries: the columns of projected_output_operators[k] are an orthonormal basis of it, with or without sparsification, and those of output_operators[k] one of the operators with symmetry k.", "quantifier": "every Basis or list of Operators, every list of Operator and Transformation symmetries with num_vecs None, every exact eigensolver and LU decomposition", "why_tests_cant": "tests check a few symmetries of small bases; that nothing is missed needs an argument about all vectors", "anchors": ["qosy/core.py:313-437 (_generate_noncumulative)", "qosy/tools.py:491-532 (intersection)", "qosy/tools.py:534-588 (sparsify)"]}
{"id": "C83", "title": "invariant_operators finds exactly the invariant operators", "statement": "invariant_operators(basis, T, mode) for a Basis or a list of orthonormal Operators returns coordinates of operators O such that T(O) - sign O has squared norm below 2 tol |O|^2; every O in the span with T(O) = sign O is in the span of the result when the solver is exact and no warning is issued, and with a gap above tol the two spaces are equal.", "quantifier": "for all Bases and orthonormal lists of Operators with complex coefficients, transformations that permute strings up to signs (all those of the package), modes, numbers of vectors, tolerances, eigensolvers and pseudo-inverses", "why_tests_cant": "universal over bases, transformations and solver outputs, including bases not closed under the transformation", "anchors": ["qosy/core.py:invariant_operators", "qosy/transformation.py:symmetry_matrix"]}
{"id": "C84", "title": "invariant_operators for lists that are not orthonormal", "statement": "invariant_operators finds the invariant operators in the span of any list of linearly independent Operators.", "quantifier": "for all lists of linearly independent Operators", "why_tests_cant": "tests use Bases, for which the symmetry matrix is a partial isometry", "anchors": ["qosy/core.py:invariant_operators", "qosy/transformation.py:symmetry_matrix"]}
{"id": "C85", "title": "kagome builds corner-sharing triangles", "statement": "kagome(N1, N2) has N1*N2*3 sites per orbital name; site t of cell (i, j) is at i a1 + j a2 + {0, a1/2, a2/2}[t], in the order of cells, sites and names; with open boundaries distance is the Euclidean distance of these points, and neighbouring sites form triangles whose edges are all 1/2 (up to the rounding of sqrt(3)/2).", "quantifier": "for all sizes, orbital names, cells and values used for sqrt(3)/2", "why_tests_cant": "universal over sizes and cells", "anchors": ["qosy/lattice.py:kagome"]}
{"id": "C86", "title": "Orthogonalization keeps the spaces", "statement": "generate(mode='noncumulative', orthogonalization=True) changes only the bases of the spaces projected_output_operators[k], not the spaces.", "quantifier": "every basis and list of symmetries", "why_tests_cant": "the tests use orthogonalization only where it has no effect", "anchors": ["qosy/core.py:414-432"]}
{"id": "C87", "title": "Generating again after adding a symmetry", "statement": "After add_symmetry on a generator that has been used, generate(mode='noncumulative') gives operators that have all the symmetries added so far.", "quantifier": "every basis and list of symmetries", "why_tests_cant": "needs a sequence of calls that no test makes", "anchors": ["qosy/core.py:263-283", "qosy/core.py:344-347", "qosy/core.py:366-399"]}
{"id": "C88", "title": "Cumulative generator", "statement": "SymmetricOperatorGenerator.generate(mode='cumulative') finds, for each k, exactly the operators in the span of the given basis that have the symmetries 0,...,k: projected_output_operators[k] is a list of linearly independent normalised Operators whose combinations are these operators; a symmetry is skipped only if the list before is empty.", "quantifier": "every non-empty Basis or independent list of Operators, every list of symmetries with num_vecs None that are all Operators, or any symmetries without sparsification or with orthogonalization=True; every exact eigensolver and LU decomposition", "why_tests_cant": "tests check a few symmetries of small bases; that nothing is missed by the restricted searches needs an argument about all combinations", "anchors": ["qosy/core.py:439-529 (_generate_cumulative)", "qosy/tools.py:534-588 (sparsify)", "qosy/basis.py:416-434", "qosy/basis.py:525-604"]}
{"id": "C89", "title": "generate with default options finds all symmetric operators", "statement": "SymmetricOperatorGenerator.generate() with its default options (cumulative, sparsification, no orthogonalization) finds all operators in the span of the basis that have all the added symmetries.", "quantifier": "every Basis, every list of Operator and Transformation symmetries", "why_tests_cant": "the tests of the cumulative mode use symmetries for which the sparsified operators happen to be orthogonal", "anchors": ["qosy/core.py:439-529", "qosy/core.py:531-582", "qosy/core.py:163 (Hermitian part)", "qosy/tools.py:534-588"]}
{"id": "C90", "title": "Empty basis in the cumulative mode", "statement": "generate(mode='cumulative') on an empty basis skips all symmetries and finds nothing.", "quantifier": "every empty Basis or list, every list of symmetries", "why_tests_cant": "no test uses an empty basis", "anchors": ["qosy/core.py:446-462"]}
{"id": "C91", "title": "Generating again in the cumulative mode", "statement": "A second call of generate(mode='cumulative') on the same object, also after add_symmetry, gives the same lists as a call on a fresh object: appended after the old ones, so that projected_output_operators[-1] is right and projected_output_operators[k] belongs to symmetry k.", "quantifier": "every non-empty basis, list of symmetries and earlier results", "why_tests_cant": "needs sequences of calls that no test makes", "anchors": ["qosy/core.py:452-457", "qosy/core.py:483-485", "qosy/core.py:525"]}
{"id": "C92", "title": "Entropies of complementary subsystems are equal", "statement": "renyi_entropy(reduced_density_matrix(vector, A, n), m) equals renyi_entropy(reduced_density_matrix(vector, B, n), m) when A and B are complementary lists of orbitals, in whatever order the labels are listed; reordering A changes nothing.", "quantifier": "every state vector on n spins (normalised or not), every way to split the labels into two lists in any order, every order m >= 1", "why_tests_cant": "the equality relates matrices of different sizes for all states and all splits", "anchors": ["qosy/diagonalization.py:162-211", "qosy/diagonalization.py:213-221"]}
{"id": "C93", "title": "Entropy bounds", "statement": "For a normalised state renyi_entropy of order m >= 2 of a subsystem is a number between 0 and ln 2 times the number of spins of the smaller of the two parts; it is 0 exactly for product states; and it does not increase with the order.", "quantifier": "every normalised state on n spins, every list of distinct labels, all orders m >= 2", "why_tests_cant": "inequalities over all states; the zero case characterises all product states", "anchors": ["qosy/diagonalization.py:196-221"]}
{"id": "C94", "title": "renyi_entropy is the Rényi entropy", "statement": "renyi_entropy(rho, m) is 1/(1-m) ln(sum of the m-th powers of the eigenvalues of rho), the Rényi entropy of order m, for every order including m = 0 (logarithm of the rank) and m = 1 (von Neumann entropy).", "quantifier": "every matrix with non-negative eigenvalues and orthonormal eigenvectors, every integer order", "why_tests_cant": "no test calls renyi_entropy with other orders than 2", "anchors": ["qosy/diagonalization.py:213-221"]}
{"id": "C95", "title": "selected_ci_greedy records normalised operators with their commutator norms", "statement": "Every Operator in the list returned by selected_ci_greedy has norm 1 and real coefficients, the number returned with it is the squared norm |[O,H]|^2 of its commutator with H, best_operator is the first of them with the smallest number, between 1 and num_steps Operators are returned, and if best_com_norm is 0 then best_operator commutes with H.", "quantifier": "every Hamiltonian (and further com_ops and orth_ops) of Pauli or Majorana strings, every initial operator, number of steps, threshold, sizes, target and early-stop parameters, every reachable cache, every eigensolver that returns real unit eigenvectors; no transformations", "why_tests_cant": "the meaning of the numbers depends on a cache shared over all steps and on bases chosen by the search", "anchors": ["qosy/algorithms.py:701-1051", "qosy/algorithms.py:122-205"]}
{"id": "C96", "title": "Each step of selected_ci_greedy finds the least commutator norm", "statement": "In every step of selected_ci_greedy the recorded number is the minimum of |[O,H]|^2/|O|^2 over all real combinations O of the strings in the basis of that step.", "quantifier": "every Hamiltonian of Pauli or Majorana strings, every initial operator and parameters, every step, every real combination; exact eigensolver and argsort, one com_op, no orth_ops, no transformations", "why_tests_cant": "a minimum over a vector space, in bases that depend on the run", "anchors": ["qosy/algorithms.py:903-944", "qosy/algorithms.py:701-1051"]}
{"id": "C97", "title": "com_norms are commutator norms also with transformations", "statement": "When transformations are given, the numbers returned by selected_ci_greedy are still the squared norms of the commutators of the returned Operators with H.", "quantifier": "every Hamiltonian, initial operator and list of transformations", "why_tests_cant": "needs a run in which no operator of the basis is symmetric", "anchors": ["qosy/algorithms.py:105-120", "qosy/algorithms.py:914-945"]}
{"id": "C98", "title": "orth_ops are avoided", "statement": "The Operator returned by selected_ci_greedy is orthogonal to the Operators given as orth_ops.", "quantifier": "every Hamiltonian, initial operator and list of orth_ops", "why_tests_cant": "fails only when the avoided operator has the smaller commutator norm", "anchors": ["qosy/algorithms.py:77-103", "qosy/algorithms.py:914-944"]}
{"id": "C99", "title": "All com_ops are minimised", "statement": "With several com_ops the Operator found by selected_ci_greedy minimises the sum of the squared norms of the commutators with all of them, over the basis.", "quantifier": "every list of com_ops and every initial operator", "why_tests_cant": "fails only when the strings of the operators differ, through the shared cache", "anchors": ["qosy/algorithms.py:122-205", "qosy/algorithms.py:903-912"]}
{"id": "C100", "title": "The search of selected_ci_greedy", "statement": "In each step of selected_ci_greedy the strings of the Operator found are those of the Operator O it starts from, followed by the largest new terms of [A,H], where A are the largest terms of [O,H], and by new anticommutators of its largest terms; afterwards at most the given number of largest coefficients above the threshold are kept, the threshold is halved when the commutator norm got worse, and the search ends at the first step in which the norm reaches the target or changes too little, or after num_steps steps.", "quantifier": "every Hamiltonian of Pauli or Majorana strings, every initial operator, sizes, threshold, number of steps, targets and reachable cache; one com_op, no transformations; every solver that returns real unit eigenvectors, every correct argsort", "why_tests_cant": "the basis depends on the whole history of the search and on the order of coefficients", "anchors": ["qosy/algorithms.py:701-1051"]}
{"id": "C101", "title": "The bases of selected_ci_greedy are closed under the transformations", "statement": "When transformations are given, the strings of every Operator recorded by selected_ci_greedy are closed under them: the image of each string is a combination of these strings, up to coefficients of at most 1e-16.", "quantifier": "every Hamiltonian, initial operator, list of transformations and parameters, every eigensolver and argsort", "why_tests_cant": "closing has to reach a fixed point for strings added while closing", "anchors": ["qosy/algorithms.py:701-1051"]}
{"id": "C102", "title": "highest_fidelity_operator returns the best overlap", "statement": "Among all normalised combinations of the given eigenvectors, highest_fidelity_operator returns one with the largest overlap |<v,t>|^2 with the target's coefficients in the basis, the fidelity it returns is this overlap, com_norm is the expectation value of the matrix of which the vectors are eigenvectors, and a target inside their span is returned itself, normalised; if no vector overlaps with the target the fidelity is 0.", "quantifier": "every target, basis, list of orthonormal vectors and non-negative eigenvalues, every normalised combination", "why_tests_cant": "a maximum over a complex vector space", "anchors": ["qosy/algorithms.py:660-696"]}
{"id": "C103", "title": "With target_operator the search follows the target, not the Hamiltonian", "statement": "With target_operator, every Operator recorded by selected_ci_greedy has norm 1 and is recorded with |[O,H]|^2, best_operator is the first with the smallest number, and without target_fidelity there are at most num_steps iterations. In a basis of fewer than 20 strings the recorded Operator is the normalised part in the basis of the Operator followed (target_operator in the first step, best_operator afterwards), independent of the Hamiltonian.", "quantifier": "every Hamiltonian of Pauli or Majorana strings, initial operator, real target_operator, target_fidelity, parameters and reachable cache; one com_op, no orth_ops, no transformations; every solver that returns real orthonormal eigenvectors", "why_tests_cant": "the numbers are those of combinations of eigenvectors in bases chosen by the run", "anchors": ["qosy/algorithms.py:946-979", "qosy/algorithms.py:660-696"]}
{"id": "C104", "title": "The search ends with target_fidelity", "statement": "selected_ci_greedy ends when target_operator and target_fidelity (between 0 and 1) are given.", "quantifier": "every Hamiltonian, initial operator, target_operator, fidelity and parameters", "why_tests_cant": "a run that does not end", "anchors": ["qosy/algorithms.py:968-979"]}
{"id": "C105", "title": "selected_ci_simple, selected_ci, selected_ci_sweep and selected_ci_greedy_simple never find an Operator", "statement": "Whenever one of these searches returns, it returns the initial operator with an infinite commutator norm and no recorded operators. selected_ci_simple raises NameError and selected_ci_greedy_simple raises IndexError in the first step; selected_ci and selected_ci_sweep raise IndexError in the first step or sweep exactly if a new string is reached by commuting twice with strings of H.", "quantifier": "every Hamiltonian and initial operator of Pauli or Majorana strings, every number of steps and reachable cache", "why_tests_cant": "whether a new string is reached depends on all pairs of strings of H and every string of the initial operator", "anchors": ["qosy/algorithms.py:208-254", "qosy/algorithms.py:257-344", "qosy/algorithms.py:347-535", "qosy/algorithms.py:542-653"]}
{"id": "C106", "title": "selected_ci_greedy_many_ops records the commutator norms of normalised operators grown from the previous ones", "statement": "Every operator recorded in every step is real, of norm 1, recorded with the squared norm of its commutator with H, and its strings are grown from the operator with the same index in the step before, truncated to its largest max_basis_size coefficients above the threshold with their coefficients. When max_basis_size is a list, a run with two or more steps always raises.", "quantifier": "every Hamiltonian, list of initial operators of Pauli or Majorana strings, numbers of steps and terms, threshold and eigensolver", "why_tests_cant": "the operators are solver outputs that are fed back as orth_ops of each other", "anchors": ["qosy/algorithms.py:1060-1117", "qosy/algorithms.py:41-46"]}
{"id": "C107", "title": "selected_ci_greedy_many_ops keeps the operators of a step independent", "statement": "The operators recorded in one step are orthogonal, or at least different, when the initial operators are independent.", "quantifier": "every Hamiltonian and list of independent initial operators", "why_tests_cant": "fails when one of the operators commutes with H, which depends on the solver outputs", "anchors": ["qosy/algorithms.py:1094", "qosy/algorithms.py:77-103", "qosy/algorithms.py:935-945"]}
{"id": "C108", "title": "selected_ci_greedy_many_ops2 records orthonormal operators with their commutator norms", "statement": "Without orth_ops, the operators recorded in one step are real and orthonormal combinations of the same strings, each recorded with the squared norm of its commutator with H. The strings are those of the step before and, for each operator in turn, the largest new terms of [A,H] where A are its largest terms of [O,H]. Between the steps all operators are cut to the strings with the largest coefficients above the threshold in one combination of them. The run ends after num_steps steps or as soon as the strings are those of the step before or of the one before that.", "quantifier": "every Hamiltonian, non-empty list of initial operators of Pauli or Majorana strings, numbers of steps and terms, threshold, random numbers and eigensolver", "why_tests_cant": "the strings depend on solver outputs and random numbers over all steps", "anchors": ["qosy/algorithms.py:1123-1270"]}
{"id": "C109", "title": "selected_ci_greedy_many_ops2 with orth_ops records commutator norms", "statement": "With orth_ops the recorded number of each operator is the squared norm of its commutator with H, as in selected_ci_greedy.", "quantifier": "every Hamiltonian, initial operators and orth_ops", "why_tests_cant": "visible only when the operators found overlap with orth_ops", "anchors": ["qosy/algorithms.py:1216-1243"]}
{"id": "C110", "title": "generate_lie_algebra of a list of Operators returns a commutator-closed list", "statement": "On a non-empty list of Pauli or Majorana Operators generate_lie_algebra ends. The result starts with the given Operators; every other one is -i times the commutator of two Operators before it, normalised. The commutator of any two of the Operators returned is of norm at most tol or, normalised, within tol (squared distance) of a combination of them; with tol=0 it is a combination of them. Linearly independent Operators stay linearly independent. The empty list gives an IndexError.", "quantifier": "every list of Operators whose coefficients are zero or above tol, every tol >= 0", "why_tests_cant": "termination and closure over all lists of Operators", "anchors": ["qosy/algebra.py:561-673", "qosy/algebra.py:122-151"]}
{"id": "C111", "title": "generate_lie_algebra keeps linearly independent Operators independent for every tol", "statement": "If the given Operators are linearly independent, so are the Operators that generate_lie_algebra returns.", "quantifier": "every list of Operators and tol", "why_tests_cant": "needs coefficients below tol", "anchors": ["qosy/algebra.py:568-583"]}
{"id": "C112", "title": "diagonalize returns the levels of a Hermitian operator in order", "statement": "For a Hermitian OperatorString combination (real coefficients; Pauli, Majorana or Fermion) of n orbitals, diagonalize(mode='Hermitian') with an exact eigensolver returns orthonormal eigenvectors of the 2^n x 2^n matrix of convert(operator, 'Pauli') with ascending eigenvalues. Without num_vecs there are 2^n of them, every eigenvalue of the matrix is among them and the first is the minimum of the energy over all states; with num_vecs=k there are k, and an eigenvector outside their span does not have a lower eigenvalue. The converted operator is the given one up to a multiple of the identity. In the other mode the solver's pairs are returned unchanged.", "quantifier": "every n, every Hermitian Operator of n orbitals, every exact solver", "why_tests_cant": "all operators and all solvers", "anchors": ["qosy/diagonalization.py:222-241", "qosy/conversion.py:312-416"]}
{"id": "C113", "title": "diagonalize returns the eigenvalues of the operator given", "statement": "The values that diagonalize returns are the eigenvalues of the operator given.", "quantifier": "every Hermitian Operator of any type", "why_tests_cant": "needs the comparison with the exact spectrum", "anchors": ["qosy/diagonalization.py:223-224", "qosy/conversion.py:287-289"]}
{"id": "C114", "title": "diagonalize_quadratic_tightbinding returns the normal modes", "statement": "For an Operator that is (or converts to) a combination of hopping terms c^+_i c_j + h.c. with real coefficients on n orbitals and an exact eigensolver, diagonalize_quadratic_tightbinding returns n pairs (e_k, v_k) such that f_k = sum_j conj(v_k[j]) c_j satisfy the anticommutation relations of fermions and the Operator is sum_k e_k f_k^+ f_k. With num_vecs=k it returns k pairs; f_k^+ raises the energy by e_k and no eigenvector of the hopping matrix outside their span has a lower eigenvalue. Operators with other strings are refused.", "quantifier": "every n, every such Operator, every exact solver, every representation of the anticommutation relations", "why_tests_cant": "all operators, all solvers and an operator identity", "anchors": ["qosy/diagonalization.py:367-401"]}
{"id": "C115", "title": "diagonalize_bdg returns the quasiparticles", "statement": "For a combination of hopping and pairing terms with real coefficients on n orbitals and an exact eigensolver, diagonalize_bdg (without num_vecs) returns n energies e_k >= 0 in descending order and n x n matrices U, V, so that gamma_k = sum_j conj(U[j,k]) c_j + conj(V[j,k]) c^+_j satisfies [H, gamma_k] = e_k gamma_k and the anticommutator of gamma_j and gamma_k^+ is delta_jk. If all energies are positive, the gamma_k are fermions, and H = sum_k e_k (gamma_k gamma_k^+ - 1/2) + tr/2 with the trace of the hopping matrix. With num_vecs=k the solver is asked for k eigenpairs near sigma, min(n, k) of them are returned in ascending order, with e_k the absolute value of the eigenvalue l and [H, gamma_k] = -l gamma_k.", "quantifier": "every n, every such Operator, every exact solver, every representation of the anticommutation relations", "why_tests_cant": "all operators, all solvers and an operator identity", "anchors": ["qosy/diagonalization.py:404-469"]}
{"id": "C116", "title": "diagonalize_bdg always returns independent fermions of positive energy", "statement": "The columns of U and V that diagonalize_bdg returns always give fermions gamma_k with [H, gamma_k] = e_k gamma_k.", "quantifier": "every quadratic Operator, every exact solver, with or without num_vecs", "why_tests_cant": "needs degenerate zero energies or a shift", "anchors": ["qosy/diagonalization.py:452-469"]}
{"id": "C117", "title": "_ladder_operators finds the ladder operators of a closed Basis", "statement": "If the commutators of the strings of the Basis with those of a hermitian Operator H stay in the Basis, then _ladder_operators(basis, H) returns orthonormal coefficient vectors and eigenvalues l > tol in ascending order, such that every returned R satisfies [H, R] = l R, and every operator R of the Basis with [H, R] = l R and l > tol is a combination of the returned ones with the eigenvalue l.", "quantifier": "every Basis, every such Operator, every exact eigensolver, every tol > 0, every representation of the algebra", "why_tests_cant": "all operators, all solvers and an operator identity", "anchors": ["qosy/core.py:762-993"]}
{"id": "C118", "title": "_ladder_operators returns only ladder operators", "statement": "Every vector R that _ladder_operators(basis, H) returns with the eigenvalue l satisfies [H, R] = l R, also if commutators leave the Basis.", "quantifier": "every Basis, every hermitian Operator, exact solvers", "why_tests_cant": "needs a Basis that is left by the commutators of the commutators", "anchors": ["qosy/core.py:812-842"]}
{"id": "C119", "title": "_ladder_operators finds all ladder operators in the Basis", "statement": "Every operator R of the Basis with [H, R] = l R and l > tol is a combination of the operators that _ladder_operators(basis, H) returns, also if commutators leave the Basis.", "quantifier": "every Basis, every hermitian Operator, exact solvers", "why_tests_cant": "needs fewer strings outside of the Basis than shared strings", "anchors": ["qosy/core.py:824-827"]}
{"id": "C120", "title": "_inverse_ladder_operators solves [O, R] = R", "statement": "With sparsification=False the null vectors that _inverse_ladder_operators(basis, R) returns are orthonormal and their commutators with R have a norm below tol. If there are at least as many strings in the commutators as in the Basis, every operator of the Basis that commutes with R is a combination of the null vectors. If some operator O of the Basis satisfies [O, R] = R (and R has canonical strings and no zero coefficients), then a particular solution is returned and satisfies this equation before it is normalised.", "quantifier": "every Basis, every Operator R, every exact singular value decomposition and pseudo-inverse, every representation of the algebra", "why_tests_cant": "all operators, all solvers and an operator identity", "anchors": ["qosy/core.py:995-1090"]}
{"id": "C121", "title": "_inverse_ladder_operators returns all and only solutions", "statement": "The null vectors of _inverse_ladder_operators span all operators of the Basis that commute with R, and a particular solution is returned only if some operator O of the Basis satisfies [O, R] = R.", "quantifier": "every Basis, every Operator R, exact solvers", "why_tests_cant": "needs fewer commutator strings than strings in the Basis, or an R outside of the range", "anchors": ["qosy/core.py:1036-1039", "qosy/core.py:1045-1062"]}
{"id": "C122", "title": "_l_matrix and _com_matrix give the commutators with an Operator", "statement": "If the dictionary holds for each string t of the Operator O the coefficients of the commutators [s_a, t] of the strings s_a of a Basis in terms of strings U, then column a of _l_matrix holds the coefficients of [s_a, O]; the matrix has at most |U| rows and at most as many columns as the Basis has strings, and strings without a column commute with O. A ValueError is raised only if all strings commute with O, and a KeyError if a string of O has no entry in the dictionary. _com_matrix holds the inner products of the columns of _l_matrix. Its null vectors are the operators of the Basis, among those with a column, that commute with O, if U are different canonical strings.", "quantifier": "every dictionary, every Operator, all lists of strings, every algebra", "why_tests_cant": "all dictionaries and an operator identity", "anchors": ["qosy/algorithms.py:48-65", "qosy/algorithms.py:67-75"]}
{"id": "C123", "title": "_l_matrix and _com_matrix have the shape of the Basis", "statement": "For right structure constants _l_matrix and _com_matrix return a result, with a row for each string of the extended Basis and a column for each string of the Basis.", "quantifier": "every dictionary, every Operator", "why_tests_cant": "needs a last string of the Basis that commutes with the Operator", "anchors": ["qosy/algorithms.py:63", "qosy/algorithms.py:73"]}
