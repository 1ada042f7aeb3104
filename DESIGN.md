# DESIGN: a Rocq model of free-fermion-lib

## 1. Modelling decisions

* **Numbers.** Numbers are exact, except in C96 (`MFloat.v`), where every operation of `pf`, `hf`, `pt`, `dt` is rounded, and in C97 (`MFloat2.v`), where those of `rotate_operators` and `build_op` are, in C99 (`MFloat3.v`), where those of the covariance and correlation matrices are, in C101 (`MUtilsF.v`), where those of `cast_to_density_matrix` and `cast_to_pdf` are, in C100 (`MDistF.v`), where those of `total_variation_distance` and `linear_entropy` are, in C102 (`MDistG.v`), where those of `trace_distance` are, and in C98 (`MGraphE.v`), where the eigenvalues, their product and the square root of the planar count are inexact. Linear algebra is done over an arbitrary
  `C : numClosedFieldType` (mathcomp: algebraically closed field with norm, conjugation and order on reals; the
  complex numbers `R[i]` over Coq's reals are an instance), so those theorems need no axioms. Entropies, rounding and
  exponentials are done over Coq's `R` / `R[i]`. Every tolerance test of the code (`np.allclose`, `abs(x) < 1e-9`, ...)
  *is* modelled, with numpy's formula `|a-b| <= atol + rtol*|b|`, `rtol=1e-5`, `atol=1e-8`.
* **Arrays.** A 2-D numpy array is a record `arr` (rows, cols, entries) with dynamic shape; shape and index errors are
  values `Raise ValueError`, `Raise IndexError`, ... of a result type `res`.
* **Loops** are folds over index lists (`iota`), `while` loops are recursion on fuel with an explicit out-of-fuel value
  that the theorems exclude.
* **External calls** (`scipy.linalg.schur`, `expm`, `logm`, `np.linalg.qr`, random generators, networkx planarity) are
  arguments of the model functions. Theorems quantify over every value of the argument that satisfies the documented
  contract of the external routine. `np.linalg.eigvals` is not an argument: it is the list of roots of the
  characteristic polynomial (multiplicities included).
* **Printing, plotting and `verbose`** output: `MPrint.v` models the sequence of print calls and their arguments, not the text of a number or
  an array; the drawing helpers are in `MPlot.v`, `MDraw.v`, `MEmbed.v`, `MPdf.v`; the print-precision state is in C64.

## 2. Per property plan

| id | modelled | proof method |
|----|----------|--------------|
| C01 | `sgn` on lists of nat, inversion count loop | inversion count parity = parity of the mathcomp permutation |
| C02-C03 | `dt`, `pt` over `itertools.permutations` modelled as a list | reindex the list of permutations by `'S_n` |
| C04-C07 | `pf`, `hf` | matching-sum lemma, congruence law by multilinear expansion, skew normal form |
| C08 | `dt_eigen` | roots of char. polynomial |
| C09-C11 | `find_perfect_matchings_brute`, `itertools.combinations` | list combinatorics, hafnian lemma |
| C12-C18 | `faces`, `complete_face`, `dual_graph_H`, `pfo_algorithm`, `count_perfect_matchings*` on rotation systems | loop invariants; Kasteleyn's theorem on combinatorial maps; witnesses by computation for the refuted clauses |
| C19 | `compute_tree_depth` | BFS distance |
| C20-C22 | `kron_plus`, partial traces | index arithmetic, PSD by test vectors |
| C23-C26 | `clean`, `generate_random_bitstring`, casts | case analysis, real arithmetic |
| C27-C32 | probability distances over `R` | Gibbs inequality, Cauchy-Schwarz, convexity |
| C33-C34 | `stabilizer_distribution`, `SRE` | Pauli completeness by induction on n |
| C35 | `trace_distance` | spectral theorem |
| C36 | `cov_distribution`, `FAF` | CAR algebra + contract of the real Schur form |
| C37-C45, C47-C51 | matrices of ff_lib | index algebra on Kronecker products |
| C46, C54-C59, C61 | states built with `expm`/`logm` | contract of expm; the contract is shown satisfiable |
| C52-C53, C67 | `eigh_sp`, `eigv_sp`, `eigm_sp_can`, `eigm_sp` | contracts of the real Schur form, `eigvalsh` and `argsort`; block sorting of a Schur form; witnesses for the refuted clauses |
| C60, C62 | paths | contract of QR; norm computation |
| C68-C69 | `generate_random_planar_graph`, `plot_graph_with_edge_weights` | induction on the attempts; loops as filters over the visited pairs |
| C70 | `generate_gaussian_state` with `compute_2corr_matrix`, `compute_cov_matrix` | quasi-free identity rho A_i = sum_k exp(K)_ik A_k rho, solved for the two-point function (PropThermal.v); value with the real exponential in PropThermal2.v |
| C71 | `pf` on the states of `generate_gaussian_state` and of the free-fermion samplers | expansion of the Pfaffian along the first row (PfExpand.v) and of the expectation by moving the first operator through the product (Wick.v); mixed states by the quasi-free identity, pure ones by one-sided annihilation |
| C72 | `eigh_sp` + `build_op` + `rotate_operators`: many-body spectrum | a family satisfying the anticommutation relations has an orthonormal Fock basis (ManyBody.v: projector products applied to a vector that is not annihilated), in which `sum S_k [b_k^+, b_k]` is diagonal; C52 gives the mode energies, C47 the lift |
| C73 | `pf` of the output of `pfo_algorithm` | C15 for the skew matrix; for the raw matrix: slot-by-slot antisymmetrisation of the permutation sum, symmetry of entries outside the tree as loop invariant (GraphPfo.v), uniqueness of the perfect matching of a tree by induction on depth |
| C74 | two-site operators and `is_matchgate` | blocks of the parity operator as commuting projectors; Jacobi's formula for normal matrices on each block; trace of parity times a quadratic operator by tensor factors; circuits by induction |
| C75 | workflows of the documentation | `compute_2corr_matrix`, `generate_gaussian_state`, `check_canonical_form`, `eigh_sp` composed as in docs/; invertibility of exp; Frobenius norm invariance under U; eigenvectors of the two-site coefficient matrix |
| C76 | the Kitaev chain | `kitaev_chain`, `build_op`, `eigh_sp`; block square of the coefficient matrix at mu = 0, delta = t; three-level characteristic polynomial; commutators of the edge Majorana operators; parity argument for the degeneracy |
| C77 | data plotted by analyze_pdf | `analyze_pdf`, `clean`, `cast_to_density_matrix`; Schur's majorisation theorem, monotonicity of rounding, spectrum of a rank-one projector |
| C78 | text produced by formatted_output | `formatted_output`; a reader of decimal numerals written independently of the printer |
| C79 | arrows drawn by plot_planar_embedding | `plot_planar_embedding`, `pfo_algorithm`; C14 and C15 read through the drawn arrows |
| C80 | inequalities between distances; stochastic maps; independent pairs | `total_variation_distance`, `relative_entropy`, `jensen_shannon_divergence`, `bhattacharyya_coeff`, `renyi_entropy` |
| C81 | trace distance under operations, partial traces, mixtures, products; wavefunctions | `trace_distance`, both partial traces, `bhattacharyya_coeff` |
| C82 | what `cov_distribution` lists; `FAF` under rotations, on thermal states | `cov_distribution`, `FAF`, `generate_gaussian_state` |
| C83 | stabilizer distribution and `SRE` under Clifford unitaries, tensor products; bounds | `stabilizer_distribution`, `SRE`, `renyi_entropy` |
| C84 | converse of C65: zero `FAF` only for pure Gaussian states | modes from the real normal form of the covariance matrix, null space of a positive matrix, uniqueness of the vacuum, Wick (C71) |
| C85 | covariance matrices of reduced states and Kronecker products, additivity of `FAF` | Jordan-Wigner strings across the cut (parity of the first part), characteristic polynomial of a block matrix, spectrum (C82) |
| C86 | `dt`, `pt`, `pf`, `hf` of direct sums, row expansions, symmetries of `hf`, matchings of unions and complete graphs | expansion of the hafnian over lists of indices, `lift_perm` for the permanent, adjacency matrix of a union as a direct sum |
| C87 | `random_CHP_state` and stabilizer states: stabilizer group, covariance matrix, `FAF` | products of Pauli strings up to a phase, expectation +-1 forces an eigenvector (null space of a positive matrix), anticommuting bilinears cannot both be fixed, spectrum (C82) |
| C88 | the two parts of a pure state: `partial_trace_*` spectra, `cov_distribution`, `FAF` | `y^q det(y + XY) = y^p det(y + YX)` for rectangular X, Y; blocks of an orthogonal covariance matrix; spectrum (C82) |
| C89 | ground states of `build_op(H)` | symplectic diagonalisation of every H by rescaling (C52), exchange of creation and annihilation operators of negative modes, energy as a sum of mode occupations, null space of a positive matrix; parent Hamiltonian from the modes of C84 |
| C90 | the picture drawn by `plot_graph_with_edge_weights` | list of drawing calls; look-up of positions; ends of a perfect matching are a permutation of the nodes (C09) |
| C91 | thermal states of `generate_gaussian_state`: least free energy, zero-temperature limit | Klein inequality in the two eigenbases (terms x ln(x/y) >= x - y of C28); spectral decomposition; product formula over the modes of C89; Bernoulli for the tanh formula of C82 |
| C92 | continuity of `compute_cov_matrix` (Majorana operators) and of `FAF` in `trace_distance` | rotated reflections -i[g_i, g_j] are contractions, so real Schur entries of the difference of covariance matrices are at most twice the distance; covariance matrices do not increase norms; telescoping of tr A^k - tr B^k |
| C93 | the logs of the printing functions (`MPrint.v`) | erasure of the logs gives the models of the other properties; the loop of `pfo_algorithm` with the invariants of C15 (the face of a leaf has exactly one unassigned edge); base-4 digits; eigenvalues of the swap matrix |
| C94 | the loops of `pf`, `hf`, `pt`, `dt` with two's-complement arithmetic (`MInt.v`) | reduction modulo 2^w commutes with sums and products, so each loop returns the reduction of the exact sum |
| C95 | the in-place sums of `_perform_rotation` and `build_op` and the Jordan–Wigner constructors with element types (`MDtype.v`) | both loops keep the type of the accumulator; the first refused term ends the call |
| C96 | the loops of `pf`, `hf`, `pt`, `dt` with rounded operations (`MFloat.v`) | one lemma per operation: k roundings relative to a bound grow to k + 1; induction over the loops; binary64 (53 bits, unbounded exponent) from Flocq |
| C97 | `rotate_operators` and `build_op` with rounded products, sums and matrix products and an arbitrary cutoff test (`MFloat2.v`) | the lemmas of C96 entry by entry; induction over the loops; the skipped coefficients bounded by the cutoff; complex128 products from six binary64 operations by Cauchy-Schwarz |
| C98 | `count_perfect_matchings_planar` with arguments for `eigvals`, `prod` and `sqrt` that obey error bounds (`MGraphE.v`) | det = hf^2 from C15; abs(s - h) abs(s + h) = abs(s^2 - h^2) and Re s >= 0; rounding to 10 digits; the lemmas of C96 for products of inexact eigenvalues |
| C99 | `compute_cov_matrix`, `compute_2corr_matrix`, `correlation_matrix` with rounded differences, products and traces (`MFloat3.v`) | the lemmas of C96 for a product with an inexact left factor; the anticommutation relations bound the rows and columns of the operators; complex128 from C97 |
| C100 | `total_variation_distance`, `linear_entropy` with rounded differences, products, sums, dot products and square roots, for any `cast_to_pdf` (`MDistF.v`) | the lemmas of C96 for sums of approximations; relative accuracy because all terms of the distance are non-negative; float64 by Flocq, where square roots of squares are exact |
| C101 | `cast_to_density_matrix`, `cast_to_pdf` with rounded products, norms, traces and eigenvalues (`MUtilsF.v`) | the lemmas of C96 and C99; the rounded outer product differs from a positive matrix by E with abs(E_ij) <= u abs(v_i) abs(v_j), whose quadratic form is bounded by Cauchy-Schwarz; the Frobenius norm of a positive matrix is at most its trace; complex128 from C97 |
| C102 | `trace_distance` with rounded differences, eigenvalues, absolute values and sum (`MDistG.v`) | the rounded difference is Hermitian and its trace norm differs by at most sqrt(n) times the Frobenius norm of the error (triangle inequality of C35, Cauchy-Schwarz on the eigenvalues); the Frobenius norm is at most the trace norm, so all errors are relative; sums as in C100, complex128 from C97 |
| C63-C64 | generator state / print precision as state monads | case analysis over all states |

A property whose statement is false of the code is kept, and a theorem named `..._refuted` gives the witness; the part
that does hold is proved beside it.

## 3. Trusted base

* Coq's kernel (8.16.1), and the reading of /repo recorded in the comments of the model files `M*.v`.
* `Print Assumptions`. Theorems over an arbitrary `C : numClosedFieldType` (PropComb, PropLib*, PropUtils*, spectral
  theory) are closed under the global context. Theorems over the reals (PropClean, PropDist*) use the axioms of
  Coq's standard library: `ClassicalDedekindReals.sig_forall_dec`, `sig_not_dec`,
  `FunctionalExtensionality.functional_extensionality_dep`, `Classical_Prop.classic`,
  `Epsilon.epsilon_statement` (used to give `R` the mathcomp `choiceType` and `rcfType` structures). No axiom is
  declared in this development. The list that `coqchk` prints also contains fields of mathcomp's sealed modules
  (`mathcomp.*`), which are proved in mathcomp.
* No kernel check is switched off, no obligation is left open, no functor or module type is used.

## 4. What is modelled and what is not

| model file | source | modelled |
|---|---|---|
| `MCombinatorics.v` | ff_combinatorics.py | every function |
| `MLib.v` | ff_lib.py | permutation matrices, Jordan-Wigner operators, `build_*`, `is_*`, rotations, traces, correlation and covariance matrices, Gibbs states |
| `MUtils.v`, `MClean.v` | ff_utils.py | every function except the two below |
| `MPdf.v` | ff_utils.py 260-370 | `analyze_pdf`: the two series handed to matplotlib (no axes, labels, colours) |
| `MFormat.v` | ff_utils.py 132-152 | `formatted_output` on exact rationals (no nan, inf, -0.0; binary rounding of floats not modelled) |
| `MDist.v` | ff_distance_measures.py | every function |
| `MEigh.v` | ff_lib.py 1016-1339 | `eigh_sp`, `eigv_sp`, `eigm_sp_can`, `eigm_sp` |
| `MRandom.v` | ff_random_states.py, ff_lib.py 414-538 | every sampler, `get_orthogonal_vectors`, the two path builders. The global generator of numpy is a state (record `gen`); nan from a zero norm is modelled for `build_linear_path` only |
| `MPlot.v` | ff_graph_theory.py 96-174 | the graph returned by `plot_graph_with_edge_weights` for real arrays and undirected simple graphs; what is drawn is in `MDraw.v` |
| `MDraw.v` | ff_graph_theory.py 29-93, 144-173 | `_draw_labeled_graph`, `_draw_labeled_multigraph` and the drawing part of `plot_graph_with_edge_weights`: the list of drawing calls and their failures; no coordinates, fonts, line widths |
| `MEmbed.v` | ff_graph_theory.py 203-248 | `plot_planar_embedding`: the highlighted arrows (no positions, nodes, labels) |
| `MInt.v` | ff_combinatorics.py 36-177 | `pf`, `hf`, `pt`, `dt` on arrays of signed w-bit integers (numpy scalars wrap around); the rounding of the float quotient of `pf`, `hf` and the warnings are not modelled |
| `MFloat.v` | ff_combinatorics.py 36-177 | `pf`, `hf`, `pt`, `dt` with arbitrary rounded `*`, `+`, `/`; overflow, underflow, nan and the conversion of the divisor to a float are not modelled |
| `MFloat2.v` | ff_lib.py 259-345, 758-794 | `rotate_operators`, `build_op` with arbitrary rounded operations; overflow, underflow, nan, fused multiply-add and the order of summation inside BLAS are not modelled (the product is an argument with an error bound; `mm_loop` is one instance); in `C97_float64` the comparison with the cutoff is exact |
| `MFloat3.v` | ff_lib.py 797-889 | covariance and correlation matrices with rounded arithmetic; the same omissions as `MFloat2.v`; `np.trace` is an argument with an error bound (`tr_loop` is one instance) |
| `MDistF.v` | ff_distance_measures.py 377-395, 490-535 | `linear_entropy` and `total_variation_distance` with rounded arithmetic; `cast_to_pdf` is an argument (the exact one of `MDist.v` or the rounded one of `MUtilsF.v`), the comparisons of `np.allclose` are exact, no overflow or underflow; `np.sum` and the dot product in `np.linalg.norm` are arguments with error bounds (`sum_loop`, `dot_loop` are one instance, numpy may sum in another order) |
| `MUtilsF.v` | ff_utils.py 191-257 | `cast_to_density_matrix` and `cast_to_pdf` with rounded arithmetic; the sums in the norms, `np.trace` and `np.linalg.eigvalsh` are arguments with error bounds (`eig_exact` is one instance of the last); comparisons are exact, no overflow or underflow |
| `MDistG.v` | ff_distance_measures.py 538-574 | `trace_distance` with rounded arithmetic; `cast_to_density_matrix` is an argument (exact or rounded), and so are `np.linalg.eigvals`, `np.sum` and `np.abs`, with error bounds; the error bound for the eigenvalues is assumed for Hermitian arguments only; no overflow or underflow |
| `MGraphE.v` | ff_graph_theory.py 473-500, ff_combinatorics.py 180-212 | the planar count with a numerical eigenvalue routine (also LinAlgError); the orientation and the matrix are exact; a real array of eigenvalues with negative product (nan) and the rounding inside `np.round` are not modelled |
| `MDtype.v` | ff_lib.py 49-54, 173-256, 283-345, 758-794 | arrays tagged with a kind (integer, real, complex); booleans, objects, widths within a kind and the overflow of integer arrays are not modelled here; values are exact |
| `MPrint.v` | the `print` calls of ff_lib.py, ff_graph_theory.py, ff_distance_measures.py, ff_combinatorics.py | every printing function as a computation with a log of its messages (and of the plots of `pfo_algorithm`); the message 211 of `dt_eigen` (LinAlgError) is unreachable for exact numbers; `np.linalg.matrix_rank` is the rank |
| `MGraph.v`, `MGraphR.v` | ff_graph_theory.py | every function except the drawing ones (`MPlot.v`, `MDraw.v`, `MEmbed.v`); `generate_random_planar_graph` draws from an abstract generator (`pygen`). networkx graphs are node and edge lists, planar embeddings are rotation functions; face tracing runs on fuel; Python sets are traversed in edge order; weights are real; the square root and `clean` of a planar count are taken over `R` |

Simplifications common to all of them, besides section 1: outside `MInt.v` and `MDtype.v` the dtypes of array arguments are not modelled (an array of numpy ints behaves like
an array of complex numbers; in particular the operators handed to `rotate_operators` and `build_op` are taken to be complex
arrays; C95 says when other types give the same values and when the in-place `+=` raises). The float arrays that `kitaev_chain` creates itself are
modelled: a complex entry is a `TypeError`; exceptions are classes without messages; where the code would raise two different classes for
ill-formed scalar arguments (a non-positive float threshold of `clean`) one class is used.

Contracts of external routines and where they are shown satisfiable:

* `expm_spec` (Expm.v): value 1 at 0, sums of commuting matrices go to products, adjoints to adjoints, and
  intertwiners are respected. Satisfied by the limit of the power series (`RExp.v`, `C46_expm_exists` in PropExpm.v).
* `schur_spec` (PropDist4.v): for a real antisymmetric input, orthogonal `Z` and antisymmetric quasi-triangular `T`;
  satisfiable by `schur_exists` (PropDist5.v).
* `schur_spec`, `schur_sort_spec`, `eigvalsh_spec`, `argsort_spec` (PropEigh1.v): for `eigh_sp`; satisfiable by the four
  `..._exists` theorems of PropEigh3.v.
* `gen_ok` (RndFacts.v): each sampler returns a value of the advertised kind (real matrix, special orthogonal,
  unitary, probability vector, index in range); satisfiable by `gen_ok_satisfiable` (PropRandom1.v).
* `logm_spec` (RndFacts.v): anti-Hermitian principal logarithm of a unitary matrix. Satisfied by the functional calculus of
  the principal argument (`RLog.v`, `C54_logm_exists` in PropExpm.v); `C54_contracts` joins it to the other two.
* `qr_spec` (PropRandom5.v): unitary times upper triangular; satisfiable by `qr_exists`.
* `plane_embedding` (GraphMap.v): what `nx.check_planarity` returns on a planar graph (a rotation system of genus 0);
  PlaneCheck.v has a verified checker, used for the examples.
* `plane_info` (PropGraph12.v): the same for a planar graph that need not be connected, with the spanning forest of
  `nx.minimum_spanning_tree` and one node of every component; met by the graph of `C17_isolated`.
* `pygen_ok` (PropGraph10.v): `randint` in range, `gnm_random_graph` simple with the requested number of edges; satisfiable by
  `C68_contract`.
* the stim state vector (`C87_CHP`): the first column of a Clifford unitary (`clifford`, PropDist10.v); met by the identity, the
  phase gate (`C83_phase_gate`) and the Hadamard gate (`C87_plus`). A missing stim package (ImportError before the argument
  checks) and the uniformity of the draw are not modelled.
