# Formal model of qosy: design

## What is verified

`/repo/qosy` is a Python library for algebra with Pauli, Majorana and fermion operator
strings.  `rocq/theories` contains a function-by-function Gallina model of the library
code that has discrete, exactly describable behaviour, small independent specifications
(operator algebras, Fock space, order/graph/permutation notions), and proofs that the
model meets the specifications for all inputs.  Properties that the code does not have
are kept as `..._refuted` theorems with a concrete witness.

## Layout of `rocq/theories`

* `GC.v`, `Exn.v`, `PyStr.v`: Gaussian rationals, exceptions as values, Python text helpers.
* `M_*.v`: the model.  No proofs.  Every definition cites the file and lines of `/repo` it models.
* `S_*.v`: specifications.  They do not mention the model.
* `L_*.v`: lemmas and proofs.
* `P_*.v`: the property theorems, each followed by `Print Assumptions`, and `Example`s showing
  that the hypotheses are inhabited (with the lemmas that the examples need).

## Modelling decisions (apply to all properties)

* Numbers.  Complex floats are modelled by Gaussian rationals (pairs of canonical
  rationals `Qc`, Leibniz equality).  Every finite double is one.  Rounding is not
  modelled.  Coefficients of single-string operations are products of 1, i, 2 and powers
  of 1/2, on which IEEE arithmetic is exact (barring underflow), so there the model is
  exact too.  Comparisons `abs(z) < tol` are modelled exactly as `|z|^2 < tol^2`.
* Labels are unbounded integers `Z` (numpy uses int64).
* Orbital operator names are the eight names of `config.VALID_OPS`; the constructor does
  not validate names, other names are not modelled.
* Python dicts keyed by OperatorStrings: a lookup finds a key iff hashes agree and `==`
  holds.  The hash is `hash(self.name)`; it is modelled as the name itself (no hash
  collisions between different names).
* Exceptions are values `Err e` of a result type.
* Iteration order over Python sets is arbitrary: wherever the code iterates over a set
  the model takes the order as a parameter and theorems quantify over it.
* numpy/scipy eigensolvers, `pinv`, sparse matrix storage, plotting, printing and
  timing code are not modelled.  Where a result of an eigensolver is used, theorems are
  stated for any vector with the property the code selects on (e.g. exact eigenvalue 0).
* The meaning of strings is given in an arbitrary *-algebra over the Gaussian rationals
  containing elements that satisfy the Pauli relations, the Majorana relations, or the
  canonical anticommutation relations.  A concrete representation (wave functions on
  finite subsets of orbitals, coded as bit sets `N`) is built to show that these
  hypotheses are satisfiable and to derive concrete corollaries.

## Which code is modelled

| file | modelled | model |
|---|---|---|
| operatorstring.py | constructor, hash, `==`, `opstring` (94-212, 227-296) | M_OpString |
| config.py | the tables of operator names (4-21) | M_OpString, M_Cluster |
| basis.py | `Basis`, `Operator` as values and as objects with shared Bases; 2-norm and `normalize` of the order 2 (25-747); `cluster_basis`, `distance_basis` (749-956) | M_Basis, M_Heap, M_Cluster |
| algebra.py | everything up to 673, both versions of `generate_lie_algebra` | M_Algebra, M_OpAlg, M_LieOps |
| conversion.py | everything | M_Conversion |
| transformation.py | everything | M_Transform, M_SpaceGroup |
| symmetrization.py | everything | M_Symm, M_SymLattice |
| lattice.py | everything except `__str__` and `__iter__` | M_Lattice |
| tools.py | everything except `project_out_nullspace` | M_Tools, M_LinAlg, M_Core (`sparsify`) |
| core.py | `commuting_operators`, `invariant_operators`, `SymmetricOperatorGenerator` (33-582) | M_Core |
| core.py | `_ladder_operators` (762-993), `_inverse_ladder_operators` (995-1090) | M_Ladder |
| diagonalization.py | everything | M_Diag, M_Diagonalize, M_Entropy, M_Quad, M_Schur, M_Modes |
| algorithms.py | everything; `explored_data` is always the default `None` in the theorems on the runs | M_Explore, M_Greedy, M_Target, M_SelectedCI, M_ManyOps, M_ManyOps2, M_LMatrix |

Not modelled:

* visualization.py; every `__str__` method except the one of OperatorString (C04); printing and timing.
* algebra.py 679-795: `_killing_form` and `_generate_center` (private, raise NotImplementedError first).
* basis.py: `norm`/`normalize` with orders other than 2; the sparse formats of `to_vector`.
* core.py 585-760: `_ladder_operators_original`; `_ladder_operators` and `_inverse_ladder_operators` with sparsification=True.
* tools.py 591-609: `project_out_nullspace`.
* Calls of `generate` in different modes on one generator object.
* The numerical libraries (eigensolvers, LU, pinv, argsort ties, random numbers): parameters of the
  model; the theorems state what they assume about them.

## Trusted base

* The Coq 8.16.1 kernel (including `vm_compute`).
* The axioms printed by `Print Assumptions` for each theorem (see the table below).
* The correspondence between the `M_*.v` definitions and the Python code, by inspection;
  each definition cites its lines and its simplifications.

## Per-property plan

### C01 Pauli and Majorana strings denote Hermitian operators that square to one

Modelled: constructor and default prefactor. Spec: word of generators times prefactor in any *-algebra with the Pauli/Majorana relations. Proof: reversal of a word of n odd generators costs (-1)^(n(n-1)/2).

### C02 Every accepted Pauli/Majorana string is Hermitian

False of the code (`opstring('1j A 1')` is accepted). Refutation by witness; the positive part is C01.

### C03 Equal strings are interchangeable as dictionary keys

False of the code ('1.0 X 1' and 'X 1' are == but have different names). Refutation by witness plus the positive statement for default prefactors.

### C04 Printing and re-parsing an operator string returns the same string

Modelled: name building with decimal printing, tokenizer and integer parser. Proof: printing/parsing inverse by induction on digits and tokens. Key identity is refuted.

### C05 The constructor rejects operator and label lists of different length

False of the code: the ValueError is constructed but not raised. Refutation.

### C06 opstring only accepts strings whose operators all belong to the deduced type

False of the code: only the last operator decides. Refutation, plus: the last operator is always of the type.

### C07 The product of two operator strings is exact

Modelled: `_operation_opstring` in full. Proof: general graded-sorting lemma (a word of commuting/anticommuting generators equals the sign of its inversions times the product of its per-label blocks), then a per-label table lookup.

### C08 The commutator of two operator strings is exact

Modelled: `_operation_opstring` in full. Proof: general graded-sorting lemma (a word of commuting/anticommuting generators equals the sign of its inversions times the product of its per-label blocks), then a per-label table lookup.

### C09 The anticommutator of two operator strings is exact

Modelled: `_operation_opstring` in full. Proof: general graded-sorting lemma (a word of commuting/anticommuting generators equals the sign of its inversions times the product of its per-label blocks), then a per-label table lookup.

### C10 Two strings either commute or anticommute

Modelled: `_operation_opstring` in full. Proof: general graded-sorting lemma (a word of commuting/anticommuting generators equals the sign of its inversions times the product of its per-label blocks), then a per-label table lookup.

### C11 Results of string operations are again well formed

Modelled: `_operation_opstring` in full. Proof: general graded-sorting lemma (a word of commuting/anticommuting generators equals the sign of its inversions times the product of its per-label blocks), then a per-label table lookup.

### C12 Product of strings is associative and the commutator satisfies Jacobi

Corollary of C07/C08 through a concrete faithful representation (equal operators have equal coefficient and string).

### C13 String operations reject operands of different type

False of the code: the second type is not inspected. Refutation by witness.

### C14 Operator-level product, commutator and anticommutator are bilinear extensions

Modelled: `_operation_operator` with its dictionary. Proof: fold invariant; the difference to the exact product is the sum of the dropped terms.

### C15 Structure constants reproduce commutators

Modelled: the growing extended basis and the triplet lists. Proof: loop invariant.

### C16 The Liouvillian matrix represents the commutator map

Same technique as C15 (Basis argument) and via conversion matrix for lists of Operators.

### C17 Null vectors of the commutant matrix are exactly the commuting operators

Spec: kernel of L^dagger L. Proof: positivity of sums of |z|^2 and linear independence of strings in the concrete representation. The eigensolver is an oracle.

### C18 generate_lie_algebra terminates and returns the smallest commutator-closed basis

Modelled: the index loop with fuel; termination proved from the finite number of strings over a finite label set.

### C19 Basis lookup is a bijection

Modelled: Basis with list and index dictionary. Proof: representation invariant preserved by every method.

### C20 Basis + and += append only the missing strings, in order

Refinement to ordered duplicate-free lists.

### C21 Operator arithmetic is vector-space arithmetic

Refinement to coefficient functions.

### C22 Updating an Operator in place does not affect other objects

Heap model of Basis/Operator objects; refuted by a two-object history; positive for Operators built from lists.

### C23 remove_zeros and to_vector keep exactly the right coefficients

Direct list proofs.

### C24 cluster_basis enumerates exactly the strings on at most k orbitals

Combinatorics of combinations and cartesian products.

### C25 Fermion cluster basis spans the conversion of the Majorana cluster basis

Refuted on three orbitals by computation (order of annihilation labels).

### C26 distance_basis enumerates exactly the strings of bounded range

Uses C31; squared distances; R+1e-10 is the parameter r.  C26_distance_basis has an arbitrary relation `within`, C26_lattice the distances of a Lattice.

### C27 distance_basis honours include_identity

Refuted: argument never used.

### C28 sort_sign sorts and returns the parity

Insertion sort model with swap counter; number of swaps equals number of inversions.

### C29 sign is the parity of a permutation

Cycle-walking model; proof by induction on transpositions.

### C30 compare is a total order

Induction on lists.

### C31 maximal_cliques returns every maximal clique exactly once

Bron-Kerbosch with an arbitrary order oracle; invariant on (R,P,X).

### C32 connected_components partitions the graph by reachability

Worklist invariant.

### C33 remove_duplicates keeps one representative per class

Scan invariant.

### C34 swap exchanges two names and is an involution

Refuted in general; positive statement for names and texts without overlaps.

### C35 replace substitutes simultaneously, longest key first

Model of the compiled regular expression as leftmost scan with sorted alternatives.

### C36 compose_permutations is function composition

Lists as functions.

### C37 gram_schmidt returns an orthonormal basis of the column span

Over real numbers (stdlib axioms of R) because of the square root.

### C38 argsort sorts a list

Model of argsort with comparison on indices; refuted for element comparison.

### C39 Majorana to Fermion conversion preserves the operator

Term expansion, normal ordering via the graded-sorting lemma, pairing of terms by Hermitian conjugation.

### C40 Fermion to Majorana conversion preserves the operator

Expansion of c = (a + ib)/2 and the graded-sorting lemma; cancellation by Hermiticity.

### C41 Jordan-Wigner conversion preserves the operator

Fold of products (C07) over single-label Jordan-Wigner images.

### C42 Conversions round-trip

From C39-C41 and injectivity of the concrete representation.

### C43 convert on Operators is linear

Fold invariant.

### C44 conversion_matrix represents convert

Fold invariant; refuted for an empty basis.

### C45 convert is total on identity strings

Refuted for the Fermion identity without include_identity.

### C46 label_permutation acts as an algebra automorphism

Graded-sorting lemma applied to renamed words.

### C47 time_reversal acts as an antiunitary automorphism

Antilinear multiplicative map on words.

### C48 particle_hole acts as an automorphism

Multiplicative map on words.

### C49 Spin parity assigns the right sign

Multiplicative map on words.

### C50 Transformation products and powers compose

Composition lemmas and induction on n.

### C51 Non-positive powers are handled as documented

Refuted at n = 0.

### C52 symmetry_matrix represents the transformation and invariant_operators is sound

Exact equality case of the Cauchy-Schwarz argument for contractions.

### C53 symmetrize_basis returns operators invariant under the whole generated group

Refuted (aliasing of G and newG stops the closure loop after one pass); proved for a single generator and for generated lists that are closed and duplicate free.

### C54 to_matrix is a faithful matrix representation

Concrete matrices on 2^n configurations; instance of the abstract representation.

### C55 to_vector inverts to_matrix

Trace computation in the concrete representation.

### C56 to_operator reconstructs an operator from its matrix

Refuted: the function always raises.

### C57 apply_transformation on state vectors matches label_permutation on operators

Bit-permutation lemmas.

### C58 reduced_density_matrix is the partial trace

Bijection of configurations and pairs of sub-configurations.

### C59 Quadratic Hamiltonians are encoded faithfully in single-particle matrices

Modelled: the loops building the three sparse matrices, with range checks (M_Quad.v). Proof: each term contributes two or four entries whose quadratic form is the term; sums of entries are linear. Requires real coefficients.

### C60 Cached exploration equals direct computation

Modelled: `_explore` with its three mutable arguments threaded as a record (M_Explore.v). Proof: the invariant is that the cached triplets of every term decode to the commutators with all explored strings (L_Explore*.v); the matrix columns are then the commutators, and independence of canonical strings (L_Unique.v) gives equality with `liouvillian_matrix`.

### C61 Cached exploration is correct for several operators

Refuted on the model of `_explore`: a string already explored is never explored again, so a new Operator gets no data. Universal statement and a concrete witness.

### C62 Truncation keeps the largest coefficients with their strings

Modelled: `_truncate_basis`, `_truncate_operator` and lines 1022-1028 of selected_ci_greedy; the result of np.argsort is an arbitrary sorting permutation. Proof: filtering and cutting a descending list. The threshold is taken non-negative.

### C63 Lattice indexing is a bijection

Positions as rational vectors.  The text np.array2string(position) that is the key of the index is an arbitrary function `show`; that it tells the positions of a lattice apart is a hypothesis (`told_apart`, for cubic lattices `shows_integers`).  False for atoms at the same place with the same name (C63_duplicate_refuted).  M_Lattice.v, P_Lattice.v.

### C64 Lattice indexing respects periodic boundaries

Same model as C63.  False beyond one period (C64_two_periods_refuted).

### C65 Lattice distance is the minimal image distance

Squared distances.  False for skew lattice vectors (C65_skew_refuted), true for cubic lattices.

### C66 space_group_symmetry returns a valid permutation

Refuted for singular R; positive soundness of each entry, and composition with C46: the Transformation renames labels (M_SpaceGroup.v, P_SpaceGroup.v).

### C67 symmetrize_lattice uses the whole point group

Modelled: `symmetrize_lattice` with `_symmetrize_atoms`, `_expand_lattice`, `_remove_duplicate_atoms` and the loop over the generators (M_SymLattice.v); positions are rational, the sorting permutation of the atoms is a parameter, the unbounded loop over generators has fuel (no result if it does not end). `near` compares squared distances with tol². Symmetry is stated for maps h with h·G ⊆ G, entry by entry (`is_product`, `maps_to`). The refutations use a square lattice with one off-centre atom and a four-fold rotation.

### C68 intersection returns the intersection of two subspaces

Over Gaussian rationals with the null vectors given as hypothesis; normalization left out.

### C69 spin_flip_symmetry exchanges spin partners

`flip_closed`: every atom has both names and the exchange undoes itself.  `swap` is the function of tools.py (M_Tools.v).

### C70 spin_parity_symmetry acts on the orbitals named dn

Composition of the label set of the lattice with C49.

### C71 time_reversal with a lattice is spinful time reversal

Composition of C69, C70 and C47.

### C72 Cubic lattices

The true part of C63-C65 for cubic lattices; `shows_integers` is the only hypothesis on printing.

### C73 What index means for any lattice

The true part of C63, C64; no hypothesis on printing.

### C74 What distance means for any lattice

The true part of C65.

### C75 Translations of periodic cubic lattices are permutations

Instance of C66_cubic.

### C76 diagonalize_quadratic returns energies and modes

Modelled: everything after the matrix of C59 (M_Schur.v), over Coq's real numbers, `schur` being an arbitrary function with W orthonormal, A = W T W^t and T made of aligned 2x2 blocks. Proof: orthonormal changes of Majorana operators keep the relations; each block is e (f^* f - 1/2). Algebras have real scalars (`RScal`); the complex Fock space (S_CFock.v, L_CFock.v) is one.

### C77 sort_sign on numbers closer than its tolerance

Modelled: the insertion sort on rational numbers with the test |x-y| > tol and x > y (M_Tools.v `sort_sign_q`). Proof: the sort is run on pairs (position, value); every move of an entry across k others changes the parity of the positions by k (L_SortTol.v).

### C78 commuting_operators finds exactly the commuting operators

Model: M_Core.commuting_operators (core.py:33-107) over Coq's complex numbers, on top of the Liouvillian matrix of M_OpAlg. Matrices are lists of columns or rows. nla.eigh and ssla.eigsh are an oracle `eigensolver`; C78_sound assumes that it returned eigenpairs of the one matrix it was given, C78_complete that they span the space (num_vecs=None) or that no eigenvector outside their span has a lower eigenvalue (num_vecs=k, the meaning of shift-invert at -1e-6 for a positive matrix). Proof: L_Core (columns denote commutators), L_Herm (eigenvectors of different eigenvalues are orthogonal, so a null vector only needs the kept ones; no gap is assumed), L_Commuting. The coordinates live in any *-algebra with real scalars (S_CScal) that represents the type with 1 <> 0; S_CFock gives one for Pauli and Majorana.

### C79 commuting_operators rejects unknown operation modes

Refuted by C79_refuted for all inputs; C79_example: with operation_mode='commute' X_1 is returned as commuting with Z_1.

### C80 sparsify keeps the span of independent vectors

Model: M_Core.sparsify (tools.py:534-588), with scipy.linalg.lu and numpy.argsort as oracles. S_Sparsify.lu_columns says what a decomposition V = P L U gives (unit lower triangular up to a row permutation; column j of V in the span of the first j+1 columns); it holds for any pivoting. Proof in L_Sparsify: the columns of P L are independent in reverse order, V is in their span, a dimension count gives equality.

### C81 sparsify always keeps the span

Refuted by C81_refuted; the documentation of sparsify claims it without a condition.

### C82 Noncumulative generator

Model: M_Core.generate_noncumulative (both loops, sparsification and orthogonalization), with the attributes as a record; a second call starts from the record of the first. Specification: S_Generate.satisfies (the meaning of a symmetry for the operator with given coordinates, in any *-algebra). Proof (L_Generate, L_Generate2, P_Generate): the kept eigenvectors of an exact solution span the kernel; the intersection of two orthonormal bases (C68) is one of the intersection; the projected superoperator is the zero matrix, so all its eigenvectors are kept and lifting them is an isometry; the two loops by induction over the list of symmetries; sparsification by C80, with the number of vectors bounded by the dimension. The hypothesis `exact_run` asks the eigensolver to be exact only on the matrices that the run gives to it, and C82_example exhibits such a solver for X_1, Z_1 with time reversal and the commutator with Z_1. L_LU.lu_exists proves that a decomposition as assumed of scipy.linalg.lu exists for every matrix. Not covered: num_vecs given (Lanczos), for which the projected spectrum is truncated.

### C83 invariant_operators finds exactly the invariant operators

Model: M_Core.invariant_operators (core.py:104-180), symmetry_columns (transformation.py:563-672) over exact complex numbers. In an orthonormal basis K the symmetry matrix is K^H M K with M a partial isometry (strings go to different strings up to sign, or leave the basis). L_PartIso proves |M x - s x|^2 + |part of x that leaves|^2 = 2 (1 - s lambda) |v|^2 for eigenvectors of the Hermitian part; L_Invariant translates to operators through the independence of strings. C83_transformations shows that label permutations, time reversal (both kinds) and particle-hole satisfy the hypotheses.

### C84 invariant_operators for lists that are not orthonormal

Refuted by C84_refuted for every eigensolver and pseudo-inverse that meet their specifications; C84_example shows that such solvers exist. The generator calls invariant_operators with such lists in its default mode.

### C85 kagome builds corner-sharing triangles

Model: M_Lattice.kagome (lattice.py:389-445). The sites are stated by an independent formula (kagome_site, kagome_label in P_Kagome.v). C85_triangles is a fact about these points; together with C85_distance it determines the nearest neighbours of the lattice.

### C86 Orthogonalization keeps the spaces

False, refuted by C86_refuted: with orthogonalization=True the space of X_1 and Z_1 (both odd under time reversal) becomes the space of Z_1, because core.py:424-425 overwrites the first column (X_1) by Z_1 and the Gram-Schmidt procedure then drops the second.

### C87 Generating again after adding a symmetry

False, refuted by C87_refuted: generate, add_symmetry, generate. The second call appends to the lists, while the projection loop indexes them from 0, so the operators for the new symmetry are never used; X_1 stays in all the spaces although it does not commute with Z_1.

### C88 Cumulative generator

Model: M_Core.generate_cumulative (c_step, c_sparsify, to_operator with the Operator arithmetic of basis.py on complex coefficients). Specification: S_Cumulative (independence of Operators by the coefficients of their strings) and S_Generate.satisfies. Proof: all Operators of a run are vectors over the strings of the initial basis (L_Cumulative.coords, L_Cumul2); the conversion of a vector to an Operator is the matrix of the current basis times the vector, divided by its norm (L_Cumul2.to_operator_ops); sparsification keeps span and independence (L_Cumul3.c_sparsify_ok, from C80); a step takes a basis of the operators with the symmetries so far to one of those that have the next as well (L_Cumul3.step_ok, from C78 and C83); the loop by induction over the list of symmetries (L_Cumul4.run_ok). The proof found a mistake in the model of to_operator (the first Operator of a list was skipped), now corrected.

### C89 generate with default options finds all symmetric operators

Model: M_Core.generate_default. Refuted (P_Default) by a run in which all hypotheses of C88 hold except the one on the options: eigensolver, LU decomposition (rows chosen as LAPACK chooses them: the first of largest modulus), pseudo-inverse and argsort are exact. The second sparsification gives (A_0 - A_2)/sqrt 2 and (A_1 - A_2)/sqrt 2, which are not orthogonal; the Hermitian part of the symmetry matrix in this basis has the eigenvalues ±sqrt(5)/2 and not ±1, so the test |e - 1| < tol keeps nothing.

### C90 Empty basis in the cumulative mode

Model: M_Core.generate_cumulative. The first iteration is skipped by `continue` and stores nothing, the second indexes the empty list (core.py:457). Proved for every empty basis.

### C91 Generating again in the cumulative mode

Model: M_Core.generate_cumulative from any earlier state. Proof by induction over the symmetries: every iteration looks only at the last stored list, which from the second iteration on is one of this call. Refuted for positions by X_1, Z_1 with time reversal and Z_1.

### C92 Entropies of complementary subsystems are equal

Model: M_Entropy.renyi_entropy (loop of numpy.dot from the identity, trace, logarithm) on M_Diag.reduced_density_matrix. Proof (L_Entropy1): the reduced matrices are G G* and the transpose of G* G up to a renaming of the indices, and tr (XY)^m = tr (YX)^m; the renaming is the bijection of configurations given by the permutation of the labels.

### C93 Entropy bounds

Proof (L_Entropy2, L_Entropy3): with p_m = tr rho^m, Lagrange's identity gives p_{m+1}^2 <= p_m p_{m+2} and p_{m+1} <= p_m p_1; with p_0 = 2^k and p_1 = 1 these give the bounds and the monotonicity for logarithms. p_2 = p_1^2 makes all 2x2 minors of the amplitudes vanish, so the state is a product. Specs: S_Entropy.normalised, product_state. Amplitudes are Gaussian rationals, the entropy is a real number.

### C94 renyi_entropy is the Rényi entropy

Spec: S_Entropy.spectral (orthonormal eigenvectors with Gaussian rational entries, rational eigenvalues). rho^m = sum p_i^m u_i u_i*. For order 0 the loop makes no step and the trace is that of the identity.

### C95 selected_ci_greedy records normalised operators with their commutator norms

Model: M_Greedy.selected_ci_greedy (growing by [H,[H,O]] and {O,O}, closing under transformations, matrix of M_Explore.explore, penalties, eigensolver, recomputed numbers, truncation, the loop with early ends). Spec: S_Greedy.commutator_norm (the commutator is, in every representation, a combination of canonical strings whose coefficients have this squared norm; unique by C95_norm), best_of. Proof (L_Greedy1-4): invariant of the loop: the basis is standard, the cache is consistent for H (exploring an explored basis with another Operator keeps it), recorded numbers are expectation values of the Gram matrix of the Liouvillian.

### C96 Each step of selected_ci_greedy finds the least commutator norm

Spec: S_Greedy.finds_lowest, sorts_reals. The first pair has an eigenvalue below the Rayleigh quotient of all real vectors; the quotient is the commutator norm by the meaning of the Liouvillian columns (C60).

### C97 com_norms are commutator norms also with transformations

Refuted by a run of the model with the transformation X_1 -> -X_1, Z_1 -> -Z_1.

### C98 orth_ops are avoided

Refuted by a run of the model with init = X_1 + Z_1, H = Z_1, orth_ops = [Z_1].

### C99 All com_ops are minimised

Refuted by a run of the model with init = X_1 + Z_1, com_ops = [Z_2, X_1]; a consequence of C61 (the cache is not keyed by the Operator).

### C100 The search of selected_ci_greedy

Spec: S_Search.search, a recursive description of the search that does not mention the model: picks (the largest entries), commutator_terms, anti_new, grown, least_so_far, stops. Proof: L_Search (growing), L_Search2 (one step, the loop).

### C101 The bases of selected_ci_greedy are closed under the transformations

Stated with the transformation functions themselves; invariant of the closing loop. Example with num_H_terms = 0 and a transformation that exchanges X and Z.

### C102 highest_fidelity_operator returns the best overlap

Model: M_Greedy.highest_fidelity_operator. Spec: S_Fidelity (coefficients_in, overlap2, best_overlap). Proof (L_Fidelity): the vector is the orthogonal projection of the target, and the inequality of Cauchy and Schwarz, proved for complex lists.

### C103 With target_operator the search follows the target, not the Hamiltonian

Model: M_Target (target_step, target_loop with a bound on the number of iterations). Spec: S_Target (followed, normalised_part, orthonormal_solver, complete_solver), S_Target2 (target_search: which overlaps are compared, which terms are kept, when the search stops). Proof (L_Target): the invariant of C95, with the vector of C102 in place of the first eigenvector; it is real because the target and the vectors are. L_Target2 describes one iteration as L_Search2 does for C100; iterations that are not counted change nothing but num_vecs and the cache.

### C104 The search ends with target_fidelity

Refuted: the state after the first step is repeated by every later iteration, except for num_vecs; proved for every number of iterations.

### C105 selected_ci_simple, selected_ci, selected_ci_sweep and selected_ci_greedy_simple never find an Operator

Model: M_SelectedCI; code behind a statement that always raises is left out (its result type is the empty set). Spec: S_SelectedCI (two_steps). Proof: C60 describes the strings found by each exploration; the Basis is unchanged exactly if the strings two steps away are in it.

### C106 selected_ci_greedy_many_ops records the commutator norms of normalised operators grown from the previous ones

Model: M_ManyOps. Spec: S_ManyOps (recorded, many_found). Proof: every call of selected_ci_greedy with one step satisfies C95 and C100, which allow orth_ops; the truncation keeps the coefficients of the strings kept (unlike C62_greedy); the loop over the operators keeps 'the first operators are the recorded ones, the others are those of the step before'.

### C107 selected_ci_greedy_many_ops keeps the operators of a step independent

Refuted by a run of the model with an eigensolver that is exact on the two matrices that occur.

### C108 selected_ci_greedy_many_ops2 records orthonormal operators with their commutator norms

Model: M_ManyOps2. Spec: S_ManyOps2 (grown_all, repeats, many2_found, rewritten). Proof (L_ManyOps2): the growing by one operator is that of C100 with a larger set of known strings; the vectors are eigenvectors of the Gram matrix of the commutators; the random combination lies in the span of the vectors; equality of Bases as sets is equality of the sets of strings.

### C109 selected_ci_greedy_many_ops2 with orth_ops records commutator norms

Refuted by a run of the model with an eigensolver that is exact on the matrices that occur. The positive part (L_Penalty) is the quadratic form of the penalty matrix on real vectors; the steps are those of C108.

### C110 generate_lie_algebra of a list of Operators returns a commutator-closed list

Model: M_LieOps. Spec: S_LieOps (is_commutator, near, by_commutators, closed_up_to, closed_exactly). Proof (L_LieOps, L_LieOps2, L_LieOps3): the commutator of complex Operators as in C20; the invariant of the loops is that the vectors are orthonormal (apart from zero vectors) and span the columns of the Operators, so that the overlap is one minus the squared distance from the span; the number of independent Operators is bounded by the number of strings on the labels of the given ones, and the number of pairs by its square, which gives termination.

### C111 generate_lie_algebra keeps linearly independent Operators independent for every tol

Refuted by a run of the model, computed step by step.

### C112 diagonalize returns the levels of a Hermitian operator in order

Model: M_Diagonalize (convert, to_matrix, eigensolver and argsort as oracles). Spec: S_Diagonalize (matrix_of, image, eigenvector, energy, exact_eigh, ordered_levels, all_levels, lowest_levels, hermitian_operator). Proof (L_Diagonalize): the array is the matrix of C54; expansion of a state in the eigenvectors gives completeness of the eigenvalues and the variational bound. L_Diagonalize2: the conversion of Hermitian strings has real coefficients and the same labels, so the matrix is Hermitian.

### C113 diagonalize returns the eigenvalues of the operator given

Refuted with the occupation of one orbital; the levels follow from C112 and the two explicit eigenvectors.

### C114 diagonalize_quadratic_tightbinding returns the normal modes

Model: M_Modes (diagonalize_tightbinding on the matrix of M_Quad). Spec: S_Modes (mode_of, fermion_list, occupation, ladder, exact_solution). Proof (L_Modes, L_Modes2, L_Modes3): a complete orthonormal eigenbasis gives the matrix as sum e v v^*; anticommutators and commutators of linear combinations of fermions; C59.

### C115 diagonalize_bdg returns the quasiparticles

Model: M_Modes (diagonalize_bdg). Spec: S_Modes (bogoliubov, ladder, fermion_list, emptiness). Proof (L_Modes4-6): the conjugated exchange of particles and holes maps eigenvectors of e to those of -e; by counting dimensions at most n eigenvalues are positive, so the lower half is <= 0; if it is negative, the lower half and its partners are a complete orthonormal eigenbasis.

### C116 diagonalize_bdg always returns independent fermions of positive energy

Refuted with the two-site Kitaev chain and with c^+_0 c^+_1 + h.c.; the explicit eigenvectors are checked.

### C117 _ladder_operators finds the ladder operators of a closed Basis

Model: M_Ladder (ladder_operators on liouvillian_matrix of M_OpAlg). Spec: S_Ladder (closed_under, exact_hermitian_solver), ladder of S_Modes. Proof (L_Ladder, L_Ladder2-4): the matrix between the shared strings is hermitian and imaginary, so eigenvalues come in pairs and none is dropped for want of a partner; strings of the Basis that commute to nothing shared do not occur in ladder operators.

### C118 _ladder_operators returns only ladder operators

Refuted by C118_sound_refuted with explicit eigenvectors and singular vectors: the projection of the Liouvillian on the null vectors (core.py:834) drops the part of the commutator that is in the Basis but not a null vector.

### C119 _ladder_operators finds all ladder operators in the Basis

Refuted by C119_complete_refuted: there is one string outside of the Basis, hence one singular value for two right singular vectors, and a projected matrix of size at most one has no pair of eigenvalues.

### C120 _inverse_ladder_operators solves [O, R] = R

Model: M_Ladder (inverse_ladder_operators). Spec: S_Ladder (exact_svd, exact_pinv). Proof (L_Ladder7): the right singular vectors are a complete orthonormal basis, those with larger singular values are orthogonal to the null space; by independence of strings [O, R] = R says that the coefficients of R are in the range of the matrix.

### C121 _inverse_ladder_operators returns all and only solutions

Refuted by C121_null_refuted (one singular value for three right singular vectors) and C121_particular_refuted (the code only checks that the strings of R occur in the commutators).

### C122 _l_matrix and _com_matrix give the commutators with an Operator

Model: M_LMatrix. Spec: S_LMatrix (entry_fits, entry_right, columns_are). Proof (L_LMatrix): induction over the terms of O, linearity of the commutator; the rows missing from the inferred shape have no entries. Kernel of L^H L: by independence of different canonical strings, with the missing rows filled with zeros.

### C123 _l_matrix and _com_matrix have the shape of the Basis

Refuted by C123_shape_refuted and C123_zero_refuted (the shape is inferred from the largest indices).

## Assumptions of each theorem

Output of `Print Assumptions` for every theorem listed in MANIFEST.json (also printed while the P_*.v files are compiled).

**Closed under the global context** (no axioms):

- P_Algebra.v: `C07_product_exact`, `C08_commutator_exact`, `C09_anticommutator_exact`, `C10_commute_or_anticommute`, `C11_results_well_formed`, `C12_product_assoc`, `C13_mixed_types_refuted`, `C13_mixed_types_partial`
- P_Basis.v: `C19_lookup_bijection`, `C19_same_key_is_equal`, `C19_shared_list_refuted`, `C20_add_basis`, `C20_add_string`, `C20_append_new`, `C21_coefficient`, `C21_add_sub`, `C21_scale`, `C21_add_denotes`, `C22_shared_basis_refuted`, `C22_iadd_partial`, `C22_isub_partial`, `C23_remove_zeros`, `C23_to_vector`
- P_Cluster.v: `C24_cluster_basis`, `C24_bad_k`, `C26_distance_basis`, `C27_include_identity_refuted`
- P_Conversion.v: `C25_cluster_basis_partial`, `C25_refuted`, `C39_majorana_to_fermion`, `C40_fermion_to_majorana_partial`, `C40_refuted`, `C41_pauli_to_majorana`, `C41_majorana_to_pauli`, `C42_pauli_round_trip`, `C42_majorana_round_trip`, `C42_fermion_round_trip`, `C43_linear`, `C43_error`, `C43_denotes`, `C43_same_type`, `C43_fermion_to_pauli`, `C43_pauli_to_fermion`, `C44_columns`, `C44_key_error`, `C44_empty_refuted`, `C45_total_partial`, `C45_refuted`
- P_Diag.v: `C54_string`, `C54_product`, `C54_operator`, `C54_add`, `C54_scale`, `C54_errors`, `C54_negative_labels`, `C55_inverse`, `C55_unsorted_refuted`, `C56_refuted`, `C56_roundtrip_refuted`, `C57_string`, `C57_operator`, `C57_states`, `C57_errors`, `C58_partial_trace`, `C58_two_vectors`, `C58_strings`
- P_Explore.v: `C60_explore`, `C60_from_scratch`, `C61_second_operator_refuted`, `C61_wrong_refuted`, `C62_truncate_basis`, `C62_truncate_operator`, `C62_greedy_refuted`
- P_Invariant.v: `C83_transformations`
- P_Kagome.v: `C85_sites`, `C85_distance`, `C85_triangles`
- P_LMatrix.v: `C122_l_matrix`, `C122_missing`, `C122_com_matrix`, `C122_kernel`, `C123_shape_refuted`, `C123_zero_refuted`
- P_Lattice.v: `C63_orbitals`, `C63_default_open`, `C63_index`, `C63_index_meaning`, `C63_cubic`, `C63_duplicate_refuted`, `C64_index_crystal`, `C64_shift`, `C64_cubic`, `C64_two_periods_refuted`, `C65_metric`, `C65_labels`, `C65_cubic`, `C65_chain`, `C65_skew_refuted`, `C63_cubic`, `C64_cubic`, `C65_cubic`, `C65_chain`, `C63_orbitals`, `C63_index_meaning`, `C65_metric`, `C65_labels`
- P_LieOps.v: `C110_empty`
- P_OpAlg.v: `C12_antisymmetry`, `C12_jacobi_partial`, `C12_jacobi_no_small_partial`, `C12_jacobi_refuted`, `C14_operation`, `C14_operation_exact`, `C14_types`, `C15_structure_constants`, `C16_liouvillian_basis`, `C16_liouvillian_operators`, `C17_commutant_basis`, `C17_commutant_operators`, `C18_lie_algebra`
- P_Quad.v: `C59_majorana`, `C59_majorana_refused`, `C59_fermion`, `C59_pauli`, `C59_complex_refuted`, `C59_tight_binding`, `C59_bdg`
- P_SelectedCI.v: `C105_simple`, `C105_selected_ci`, `C105_greedy_simple`, `C105_sweep`, `C105_sweep_raises`
- P_SpaceGroup.v: `C26_lattice`, `C66_moved`, `C66_rule`, `C66_cubic`, `C66_translation`, `C66_singular_refuted`, `C69_spin_flip`, `C69_no_partner`, `C70_spin_parity`, `C71_time_reversal`, `C71_argument`, `C66_translation`
- P_Strings.v: `C01_hermitian_unitary`, `C01_satisfiable`, `C02_accepted_hermitian_refuted`, `C02_accepted_hermitian_partial`, `C03_eq_hash_refuted`, `C03_eq_hash_partial`, `C04_print_parse_partial`, `C04_print_parse_refuted`, `C05_length_check_refuted`, `C06_type_check_refuted`, `C06_type_check_partial`
- P_SymLattice.v: `C67_symmetric`, `C67_one_expansion`, `C67_one_generator_refuted`, `C67_not_symmetric_refuted`, `C67_missing_atoms_refuted`, `C67_zero_expansions`
- P_Symm.v: `C53_commuting_partial`, `C53_whole_group_partial`, `C53_group_list`, `C53_no_generators`, `C53_reflections_refuted`, `C53_repeated_refuted`, `C53_identity_refuted`
- P_Tools.v: `C28_sort_sign`, `C29_sign`, `C30_compare`, `C31_maximal_cliques`, `C32_connected_components`, `C33_remove_duplicates`, `C34_swap_refuted`, `C34_swap_partial`, `C35_replace`, `C36_compose`, `C38_argsort_partial`, `C38_argsort_cmp_refuted`, `C77_tolerance`, `C77_refuted`
- P_Transform.v: `C46_string`, `C46_products`, `C46_operator`, `C46_compose`, `C46_identity`, `C46_rejected`, `C47_string`, `C47_products`, `C47_operator`, `C47_operator_map`, `C47_complex_refuted`, `C47_spinful_string`, `C47_spinful_products`, `C47_spinful_operator`, `C48_string`, `C48_products`, `C48_operator`, `C49_sign`, `C49_products`, `C50_product_partial`, `C50_product_operator_partial`, `C50_small_refuted`, `C50_power_step`, `C50_power_iterated`, `C50_permutation_power`, `C51_zero_refuted`, `C51_other_partial`, `C52_columns`, `C52_eigenspace`, `C52_deviation`, `C52_invariant_operators`, `C52_monomial`

**`ClassicalDedekindReals.sig_forall_dec`, `FunctionalExtensionality.functional_extensionality_dep`** (axioms of the Coq standard library: classical real numbers, functional extensionality, excluded middle):

- P_Core.v: `C78_sound`, `C79_refuted`
- P_Diagonalize.v: `C112_pauli`, `C112_any_type`, `C112_general`, `C113_shifted_refuted`
- P_Invariant.v: `C84_refuted`
- P_Inverse.v: `C121_null_refuted`
- P_Modes.v: `C114_modes`, `C114_lowest`, `C114_refused`, `C115_num_vecs`
- P_Schur.v: `C76_majorana`, `C76_fermion`, `C76_fermion_shift_refuted`, `C76_misaligned_refuted`, `C76_fermion_vectors_refuted`, `C76_lattice`

**`ClassicalDedekindReals.sig_forall_dec`, `ClassicalDedekindReals.sig_not_dec`, `FunctionalExtensionality.functional_extensionality_dep`** (axioms of the Coq standard library: classical real numbers, functional extensionality, excluded middle):

- P_Again.v: `C90_empty_partial`, `C90_empty_refuted`, `C91_again`, `C91_positions_refuted`
- P_Core.v: `C78_kernel`, `C78_complete`
- P_Cumulative.v: `C88_cumulative`
- P_Default.v: `C89_refuted`
- P_Fidelity.v: `C102_fidelity`
- P_Generate.v: `C82_symmetric`, `C86_refuted`, `C87_refuted`
- P_Greedy.v: `C95_greedy`, `C95_norm`, `C96_least`, `C97_refuted`, `C98_refuted`, `C99_refuted`
- P_Invariant.v: `C83_kernel`, `C83_sound`, `C83_complete`
- P_Inverse.v: `C120_inverse`, `C121_particular_refuted`
- P_Ladder.v: `C117_ladder_operators`, `C118_sound_refuted`, `C119_complete_refuted`
- P_LieOps.v: `C110_lie_operators`, `C110_exact`, `C111_refuted`
- P_LinAlg.v: `C37_gram_schmidt`, `C37_zero_first_column_refuted`, `C68_intersection`
- P_ManyOps.v: `C106_many`, `C106_list`, `C107_refuted`
- P_ManyOps2.v: `C108_many2`, `C109_refuted`, `C109_penalty_partial`
- P_Modes.v: `C115_ladder`, `C115_modes`, `C116_zero_modes_refuted`, `C116_num_vecs_refuted`
- P_Search.v: `C100_search`, `C101_closed`
- P_Sparsify.v: `C80_sparsify`, `C80_single`, `C80_many`, `C81_refuted`
- P_Target.v: `C103_target`, `C104_refuted`
- P_Target2.v: `C103_search`

**`ClassicalDedekindReals.sig_forall_dec`, `ClassicalDedekindReals.sig_not_dec`, `Classical_Prop.classic`, `FunctionalExtensionality.functional_extensionality_dep`** (axioms of the Coq standard library: classical real numbers, functional extensionality, excluded middle):

- P_Entropy.v: `C92_complement`, `C92_order`, `C93_bounds`, `C93_decreasing`, `C94_spectrum`, `C94_small`, `C94_order_zero_refuted`

