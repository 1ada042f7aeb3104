{"id": "C01", "title": "sgn is the signature of the permutation", "statement": "For every permutation p of 0..n-1 given as a list, sgn(p) is +1 if p is even and -1 if p is odd in the group-theoretic sense (parity of the number of transpositions it factors into); consequently sgn is multiplicative and changes sign under a transposition.", "quantifier": "every n and every permutation of range(n)", "why_tests_cant": "there are n! permutations for each n", "anchors": ["src/ff/ff_combinatorics.py:sgn"]}
{"id": "C02", "title": "dt is the determinant", "statement": "For every n x n matrix, dt(A) returns the Leibniz determinant of A; hence dt(AB)=dt(A)dt(B), dt(A^T)=dt(A), dt(I)=1, dt vanishes on repeated rows, and dt of the empty matrix is 1. If A has fewer columns than rows (n >= 1) the call raises IndexError.", "quantifier": "every n and every matrix over a field of numbers", "why_tests_cant": "all sizes and all entries", "anchors": ["src/ff/ff_combinatorics.py:dt"]}
{"id": "C03", "title": "pt is the permanent", "statement": "For every n x n matrix, pt(A) is the permanent: invariant under row and column permutations and transposition, multiplicative under row scaling, and equal to the number of permutations supported on the ones of a 0/1 matrix.", "quantifier": "every n, every matrix, every row/column permutation", "why_tests_cant": "all sizes, entries and permutations", "anchors": ["src/ff/ff_combinatorics.py:pt"]}
{"id": "C04", "title": "pfaffian squares to the determinant", "statement": "For every skew-symmetric n x n matrix A (any n), pf(A)^2 = dt(A); in particular pf is 0 for odd n.", "quantifier": "every n and every skew-symmetric matrix", "why_tests_cant": "polynomial identity in n(n-1)/2 variables for every n", "anchors": ["src/ff/ff_combinatorics.py:pf", "src/ff/ff_combinatorics.py:dt"]}
{"id": "C05", "title": "pfaffian transformation law", "statement": "For every skew-symmetric A and every B of the same size, pf(B A B^T) = dt(B) pf(A) (in particular pf(cA)=c^(n/2) pf(A) and simultaneous row/column permutation multiplies pf by sgn).", "quantifier": "every n, A skew-symmetric, B arbitrary", "why_tests_cant": "quantifies over pairs of matrices of every size", "anchors": ["src/ff/ff_combinatorics.py:pf", "src/ff/ff_combinatorics.py:dt"]}
{"id": "C06", "title": "pf/hf count each perfect matching exactly once", "statement": "For symmetric A hf(A) is the sum over perfect matchings of {0..n-1} of the product of the entries on the matched pairs, and for skew-symmetric A pf(A) is the same sum with each matching weighted by its sign; hf and pf are 0 for odd n.", "quantifier": "every even n and every (skew-)symmetric matrix", "why_tests_cant": "the n!/(2^k k!) over-counting argument must hold for every n", "anchors": ["src/ff/ff_combinatorics.py:pf", "src/ff/ff_combinatorics.py:hf"]}
{"id": "C07", "title": "bipartite reductions", "statement": "hf([[0,A],[A^T,0]]) = pt(A) and pf([[0,A],[-A^T,0]]) = (-1)^(n(n-1)/2) dt(A) for every n x n matrix A.", "quantifier": "every n and every A", "why_tests_cant": "all sizes and entries", "anchors": ["src/ff/ff_combinatorics.py:hf", "src/ff/ff_combinatorics.py:pt", "src/ff/ff_combinatorics.py:pf", "src/ff/ff_combinatorics.py:dt"]}
{"id": "C08", "title": "dt_eigen agrees with dt", "statement": "For every square matrix the product of the eigenvalues returned by dt_eigen equals dt(A); for a non-square matrix dt_eigen returns None.", "quantifier": "every matrix over the complex numbers", "why_tests_cant": "all sizes and entries, including defective matrices", "anchors": ["src/ff/ff_combinatorics.py:dt_eigen", "src/ff/ff_combinatorics.py:dt"]}
{"id": "C09", "title": "brute-force matching enumeration is sound, complete and duplicate-free", "statement": "For every simple graph with at most 15 nodes, find_perfect_matchings_brute returns exactly the perfect matchings of the graph (sets of edges covering each node exactly once), each exactly once.", "quantifier": "every simple graph with n <= 15 nodes, any node labels and edge order", "why_tests_cant": "number of graphs is 2^(n choose 2)", "anchors": ["src/ff/ff_graph_theory.py:find_perfect_matchings_brute"]}
{"id": "C10", "title": "brute-force count equals the hafnian of the adjacency matrix", "statement": "For every simple graph on at most 15 nodes, len(find_perfect_matchings_brute(G)) = hf(adjacency matrix of G).", "quantifier": "every simple graph with at most 15 nodes", "why_tests_cant": "cross-function identity over all graphs", "anchors": ["src/ff/ff_graph_theory.py:find_perfect_matchings_brute", "src/ff/ff_combinatorics.py:hf"]}
{"id": "C11", "title": "count_perfect_matchings counts perfect matchings of non-planar graphs of every size", "statement": "For every simple graph with at most 15 nodes that is not planar, count_perfect_matchings(G) is the number of perfect matchings of G. Refuted beyond: every non-planar graph with more than 15 nodes gets 0, in particular the complete graphs of even order n >= 16, which are not planar and have perfect matchings.", "quantifier": "every non-planar graph", "why_tests_cant": "size limit hidden in a print statement: false for graphs with more than 15 nodes (refutation expected)", "anchors": ["src/ff/ff_graph_theory.py:count_perfect_matchings", "src/ff/ff_graph_theory.py:find_perfect_matchings_brute"]}
{"id": "C12", "title": "faces partitions the directed edges", "statement": "For every graph with at least one edge and every rotation system (embedding) on it, faces(graph, emb) terminates and returns closed walks following the embedding such that every directed edge (u,v),(v,u) occurs exactly once in exactly one face; moving the outer face last only reorders faces.", "quantifier": "every finite graph, every embedding, every outer face reported by networkx", "why_tests_cant": "loop termination and partition over all embeddings", "anchors": ["src/ff/ff_graph_theory.py:faces"]}
{"id": "C13", "title": "complete_face fixes the parity of the face and touches one edge only", "statement": "If exactly one edge of the face is unassigned and the assigned ones are +-1, then after complete_face the product over the face of the orientation signs seen along the traversal is -1 (odd number of edges against the traversal), only the two matrix entries of that edge change, and both become +-1; with no unassigned edge nothing changes and None is returned; with several only the last one is written; a node outside the matrix raises IndexError.", "quantifier": "every orientation matrix and every face traversal", "why_tests_cant": "all faces, traversals, sign patterns", "anchors": ["src/ff/ff_graph_theory.py:complete_face"]}
{"id": "C14", "title": "pfo_algorithm orients every edge and makes every non-root face odd", "statement": "For every connected plane graph with an edge and with nodes 0..n-1 in order, every plane embedding, spanning tree, outer face and real edge weights, pfo_algorithm returns; every edge receives +-1, non-edges receive 0, and every face other than the last one in the face list has an odd number of edges traversed against the orientation (the last one too when n is even).", "quantifier": "every connected plane graph, every spanning tree choice, every face order", "why_tests_cant": "invariant over the leaf-stripping loop for every graph", "anchors": ["src/ff/ff_graph_theory.py:pfo_algorithm", "src/ff/ff_graph_theory.py:complete_face", "src/ff/ff_graph_theory.py:dual_graph_H", "src/ff/ff_graph_theory.py:faces"]}
{"id": "C15", "title": "planar counting is correct (FKT)", "statement": "For every connected plane graph with an edge and with nodes 0..n-1 in order, every plane embedding, spanning tree and outer face, and real edge weights, count_perfect_matchings_planar returns |sum over perfect matchings of the product of weights| rounded to 10 digits; without weights exactly the number of perfect matchings. (The determinant of the oriented matrix is the square of the hafnian of the adjacency matrix.)", "quantifier": "every connected plane graph", "why_tests_cant": "Kasteleyn's theorem: all planar graphs", "anchors": ["src/ff/ff_graph_theory.py:count_perfect_matchings_planar", "src/ff/ff_graph_theory.py:pfo_algorithm", "src/ff/ff_combinatorics.py:dt_eigen"]}
{"id": "C16", "title": "planar counting is independent of node labelling order", "statement": "For two graphs with nodes 0..n-1 inserted in increasing order that differ by a renumbering of the nodes, planar counting gives the same result, whatever the embeddings and spanning trees. Refuted for other insertion orders and labels: the 4-cycle inserted in the order 0,2,1,3 gets 1 instead of 2; whenever an edge outside the spanning tree is reported with the larger label first an AssertionError is raised; a label not below the number of nodes always ends in AssertionError or IndexError.", "quantifier": "every connected planar graph and every node insertion order", "why_tests_cant": "refutation expected: labels are used as matrix indices while networkx matrices follow insertion order", "anchors": ["src/ff/ff_graph_theory.py:pfo_algorithm", "src/ff/ff_graph_theory.py:dual_graph_H", "src/ff/ff_graph_theory.py:count_perfect_matchings_planar"]}
{"id": "C17", "title": "planar counting is total on planar graphs", "statement": "Totality of planar counting is refuted: every non-empty graph without edges raises ValueError, every planar graph with at least two components that have an edge raises AssertionError, and the graph without nodes gets 0 although it has one (empty) perfect matching. Complete classification for every planar graph with nodes 0..n-1, whatever embedding and spanning forest networkx returns: the result depends on the number of components with an edge only; with exactly one (isolated nodes allowed) it is |sum over perfect matchings of the product of weights| rounded to 10 digits.", "quantifier": "every planar graph", "why_tests_cant": "refutation expected: disconnected graphs fail the tree assertion and edgeless graphs raise ValueError", "anchors": ["src/ff/ff_graph_theory.py:count_perfect_matchings", "src/ff/ff_graph_theory.py:faces", "src/ff/ff_graph_theory.py:pfo_algorithm"]}
{"id": "C18", "title": "dual_graph_H has one vertex per face and one edge per shared non-tree edge", "statement": "dual_graph_H(G,F,T) has vertices 0..len(F)-1 and joins two different faces iff they share an edge of G not in T, for every graph G, every face list whose members are pairwise distinct as edge lists and every subgraph T such that each edge of G outside T, as the tuple reported by networkx, borders exactly two faces. Refuted without that condition: an edge bordering one face adds a vertex, and an edge reported as (u,v) with u>v is not found in any face.", "quantifier": "every graph, face partition, spanning tree", "why_tests_cant": "all inputs", "anchors": ["src/ff/ff_graph_theory.py:dual_graph_H"]}
{"id": "C19", "title": "compute_tree_depth is the eccentricity of the first node", "statement": "compute_tree_depth returns the greatest distance from the first node for every tree and raises ValueError for every non-empty graph that is not a tree. Refuted for the graph without nodes, where networkx raises NetworkXPointlessConcept.", "quantifier": "every graph", "why_tests_cant": "all trees", "anchors": ["src/ff/ff_graph_theory.py:compute_tree_depth"]}
{"id": "C20", "title": "kron_plus is the direct sum", "statement": "For all square a, b: kron_plus(a,b) is block diagonal with blocks a and b (so it is multiplicative, determinants multiply and traces add). It succeeds exactly when a and b are both square: for every other pair it raises ValueError, so the documented direct sum of arbitrary matrices is refuted.", "quantifier": "every pair of matrices", "why_tests_cant": "rectangular case refuted: raises ValueError whenever a or b is not square", "anchors": ["src/ff/ff_utils.py:kron_plus"]}
{"id": "C21", "title": "partial traces invert the tensor product", "statement": "For every square matrix AB of dimension D=d*e, partial_trace_diagblocksum(AB,d) is exactly the partial trace over the first factor, and every entry of partial_trace_blockTr(AB,d) is within 1e-8 of the partial trace over the second factor (exact when that is real or has an imaginary part above 1e-8, otherwise its real part). Hence kron(A,B) gives Tr(A) B and Tr(B) A. diagblocksum is linear and preserves the trace; d=0 raises ZeroDivisionError, d not dividing D raises AssertionError. Exactness and linearity of blockTr are refuted.", "quantifier": "every dimension pair and all matrices", "why_tests_cant": "all sizes and entries", "anchors": ["src/ff/ff_utils.py:partial_trace_blockTr", "src/ff/ff_utils.py:partial_trace_diagblocksum"]}
{"id": "C22", "title": "partial trace of a state is a state", "statement": "If AB is Hermitian positive semidefinite of trace 1, so are both reduced matrices, for every admissible d.", "quantifier": "every bipartite density matrix", "why_tests_cant": "all states", "anchors": ["src/ff/ff_utils.py:partial_trace_blockTr", "src/ff/ff_utils.py:partial_trace_diagblocksum"]}
{"id": "C23", "title": "clean rounds to nearest and is idempotent", "statement": "For every value and digit count k, clean moves a real entry to the nearest multiple of 10^-k (ties to even; by at most 0.5*10^-k), keeps list length / array shape, drops imaginary parts exactly when all of them are below 10^-k, and is idempotent on floats, complex numbers, strings, lists and arrays; a float threshold 10^-k is the same as k. Refuted: idempotence for Python ints (second call raises TypeError) and for float thresholds that are not powers of ten.", "quantifier": "every scalar/list/array of numbers and every k", "why_tests_cant": "all real inputs", "anchors": ["src/ff/ff_utils.py:clean"]}
{"id": "C24", "title": "generate_random_bitstring has exactly k ones", "statement": "For every n,k and every random draw the result is None iff k<0 or k>n, and otherwise a 0/1 array of length n with exactly k ones.", "quantifier": "every n, k and every outcome of the random generator", "why_tests_cant": "all random outcomes", "anchors": ["src/ff/ff_utils.py:generate_random_bitstring"]}
{"id": "C25", "title": "cast_to_density_matrix returns a valid state or raises", "statement": "Every value returned is square, Hermitian and of unit trace (up to the allclose tolerances) with quadratic form of its lower-triangular Hermitian part >= -1e-12; a square matrix of dimension other than 1 is returned iff it satisfies these, else AssertionError; a normalised wavefunction is mapped to |psi><psi|, a probability vector of L2 norm away from 1 to its diagonal matrix, an exact density matrix to itself; unnormalised vectors raise ValueError; rows and columns act as 1-D vectors; the function is idempotent in dimension at least 2 (refuted in dimension 1).", "quantifier": "every 1-D or 2-D input array", "why_tests_cant": "all inputs", "anchors": ["src/ff/ff_utils.py:cast_to_density_matrix"]}
{"id": "C26", "title": "cast_to_pdf returns the measurement distribution", "statement": "For every normalised wavefunction cast_to_pdf returns the Born probabilities |psi_i|^2, for every density matrix its diagonal; a probability vector is returned unchanged when its L2 norm is not within tolerance of 1, and squared entrywise otherwise (refuting that it is always returned unchanged); the result is real with sum within 2e-5 of 1.", "quantifier": "every input", "why_tests_cant": "probability-vector clause refuted: vectors within 1e-5 of a point mass are taken for wavefunctions and squared", "anchors": ["src/ff/ff_utils.py:cast_to_pdf", "src/ff/ff_utils.py:cast_to_density_matrix"]}
{"id": "C27", "title": "total variation distance is a metric bounded by 1", "statement": "On probability distributions of the same length: symmetric, zero iff equal, triangle inequality, 0 <= TV <= 1, equal to the maximal difference in probability of an event. Refuted: different lengths are not always rejected (a length-1 array is broadcast).", "quantifier": "every finite length, all distributions", "why_tests_cant": "all distributions", "anchors": ["src/ff/ff_distance_measures.py:total_variation_distance"]}
{"id": "C28", "title": "KL divergence is non-negative and zero only at equality", "statement": "relative_entropy(p,q) >= 0 with equality iff p=q, infinite iff some p_i>0 has q_i=0.", "quantifier": "all pairs of distributions of every length", "why_tests_cant": "Gibbs inequality over all distributions", "anchors": ["src/ff/ff_distance_measures.py:relative_entropy"]}
{"id": "C29", "title": "Jensen-Shannon divergence is symmetric and bounded by log 2", "statement": "JS(p,q)=JS(q,p), 0 <= JS <= log 2, zero iff p=q, always finite.", "quantifier": "all pairs of distributions", "why_tests_cant": "all distributions", "anchors": ["src/ff/ff_distance_measures.py:jensen_shannon_divergence"]}
{"id": "C30", "title": "Bhattacharyya coefficient lies in [0,1]", "statement": "BC is symmetric, 0 <= BC <= 1, BC = 1 iff p=q, BC=0 iff disjoint supports, 1-BC <= TV.", "quantifier": "all pairs of distributions", "why_tests_cant": "all distributions", "anchors": ["src/ff/ff_distance_measures.py:bhattacharyya_coeff"]}
{"id": "C31", "title": "Renyi entropies are bounded and extremal where documented", "statement": "For every order a in {0,1,inf} or positive real, 0 <= S_a(p) <= log d, S_a(uniform)=log d, S_a(point mass)=0, and S_a is non-increasing in a.", "quantifier": "all distributions, all orders", "why_tests_cant": "all real orders and distributions", "anchors": ["src/ff/ff_distance_measures.py:renyi_entropy"]}
{"id": "C32", "title": "linear entropy bounds", "statement": "For every distribution whose length is a perfect square linear_entropy is 1-sum p_i^2 in [0,1-1/d] and equals 1-exp(-S_2); lengths within range that are not perfect squares raise AssertionError. Refuted: the documented formula 1-d*||p||^2, and that every non-square length is rejected (np.allclose accepts huge ones).", "quantifier": "all distributions", "why_tests_cant": "all distributions and lengths; documented formula 1-d*||p||^2 refuted", "anchors": ["src/ff/ff_distance_measures.py:linear_entropy", "src/ff/ff_distance_measures.py:renyi_entropy"]}
{"id": "C33", "title": "stabilizer distribution is a probability distribution", "statement": "For every n >= 1 and every n-qubit density matrix, stabilizer_distribution returns 4^n non-negative numbers summing to 1 (the assertion never fires); 1x1 input raises ValueError.", "quantifier": "every n and every state", "why_tests_cant": "Pauli-basis completeness for all n", "anchors": ["src/ff/ff_distance_measures.py:stabilizer_distribution", "src/ff/ff_lib.py:generate_pauli_group"]}
{"id": "C34", "title": "SRE is non-negative and vanishes on stabilizer states", "statement": "For every pure state and every order a, SRE_a >= 0; it is zero on stabilizer states for every order, and for every finite order only on them; order infinity gives 0 on every pure state. Refuted for mixed states: SRE_2 is negative whenever 5/4 <= d*purity and d*purity^2 < 1.", "quantifier": "every n and state", "why_tests_cant": "mixed-state clause refuted: SRE is negative for some mixed states", "anchors": ["src/ff/ff_distance_measures.py:SRE"]}
{"id": "C35", "title": "trace distance is a metric on states bounded by 1", "statement": "trace_distance is symmetric, zero iff equal, satisfies the triangle inequality, lies in [0,1], equals the best distinguishing probability gap over contractions (Helstrom), is invariant under unitary conjugation, and bounds the total variation distance of the diagonals; different dimensions raise ValueError unless one of them is 1 (refuted there: by broadcasting the 1x1 state is taken as a constant matrix; the result stays symmetric but can exceed 1).", "quantifier": "all dimensions and states", "why_tests_cant": "all states", "anchors": ["src/ff/ff_distance_measures.py:trace_distance", "src/ff/ff_distance_measures.py:total_variation_distance"]}
{"id": "C36", "title": "covariance eigenvalues and FAF bounds", "statement": "For every state the Majorana covariance matrix M is real antisymmetric with eigenvalue magnitudes at most 1, so cov_distribution has at most n entries, all in (0,1], and 0 <= FAF_k <= n for every k>=1; FAF_k is n - tr((M^T M)^k)/2 up to the dropped small entries, and is 0 iff M^T M = 1. Refuted: FAF=0 for every free-fermion state (the maximally mixed one has FAF=n).", "quantifier": "every n, every state, every k", "why_tests_cant": "docstring claim refuted: the maximally mixed (Gaussian) state has FAF = n", "anchors": ["src/ff/ff_distance_measures.py:cov_distribution", "src/ff/ff_distance_measures.py:FAF"]}
{"id": "C37", "title": "permutation_to_matrix represents the permutation", "statement": "For every permutation p the result maps e_i to e_p(i), is orthogonal and is multiplicative; None is returned iff some entry is out of range. The documented rejection of every non-permutation is refuted by [0,0].", "quantifier": "every list", "why_tests_cant": "documented rejection of non-permutations refuted by [0,0]", "anchors": ["src/ff/ff_lib.py:permutation_to_matrix"]}
{"id": "C38", "title": "generate_pauli_group is the full orthogonal Pauli basis", "statement": "For every n>=1 it returns 4^n Hermitian unitary 2^n x 2^n matrices in lexicographic order, traces of products are 2^n delta, every matrix is their linear combination; n<=0 raises ValueError.", "quantifier": "every n", "why_tests_cant": "exponential family for all n", "anchors": ["src/ff/ff_lib.py:generate_pauli_group", "src/ff/ff_lib.py:pauli_matrices"]}
{"id": "C39", "title": "Jordan-Wigner operators satisfy the canonical anticommutation relations", "statement": "For every n and i,j: {a_i,a_j}=0, {a_i,a_j^+}=delta_ij, a_i annihilates the vacuum e_0, a_i^+ a_i is the occupation of bit i; jordan_wigner_alphas lists raising then lowering.", "quantifier": "every number of sites and every pair of indices", "why_tests_cant": "2^n dimensional identity for all n", "anchors": ["src/ff/ff_lib.py:jordan_wigner_lowering", "src/ff/ff_lib.py:jordan_wigner_alphas"]}
{"id": "C40", "title": "Majorana operators", "statement": "For every n the 2n operators are Hermitian with {g_i,g_j}=delta_ij and equal rotate_operators(build_Omega(n), jordan_wigner_alphas(n)).", "quantifier": "every n and indices", "why_tests_cant": "all n; documented sign of the second family refuted", "anchors": ["src/ff/ff_lib.py:jordan_wigner_majoranas", "src/ff/ff_lib.py:build_Omega", "src/ff/ff_lib.py:rotate_operators"]}
{"id": "C41", "title": "rotate_operators is the linear map C (resp. C^dagger) up to dropped tiny coefficients", "statement": "When no entry of C is non-zero and below 1e-9 the result is exactly sum_i C_ji alpha_i (Left: conj(C_ij)); in general each entry is off by at most 1e-9 * sum |alpha_i|; rotations compose; the (C,alphas) argument order may be swapped.", "quantifier": "every n, C, alphas", "why_tests_cant": "all matrices", "anchors": ["src/ff/ff_lib.py:rotate_operators", "src/ff/ff_lib.py:_perform_rotation"]}
{"id": "C42", "title": "coefficient matrices have the documented block structure", "statement": "build_H/build_V/kitaev_chain/random_H_generator return [[-A*,B],[-B*,A]] (resp. [[-Z*,A],[-A*,Z]]); with A Hermitian and B skew they are Hermitian (resp. skew) and satisfy particle-hole symmetry S H* S = -H. kitaev_chain takes a real pairing delta, and a real hopping t unless mu is complex; from two sites on every other choice, in particular a complex pairing, raises TypeError.", "quantifier": "every n and all blocks", "why_tests_cant": "all sizes and entries", "anchors": ["src/ff/ff_lib.py:build_H", "src/ff/ff_lib.py:build_V", "src/ff/ff_lib.py:kitaev_chain", "src/ff/ff_lib.py:random_H_generator"]}
{"id": "C43", "title": "Omega, the reordering and K are unitary", "statement": "build_Omega(n), build_reordering_xx_to_xp(n) and build_K(n) are unitary for every n; the reordering is the documented interleaving permutation; K is symplectic.", "quantifier": "every n", "why_tests_cant": "all n", "anchors": ["src/ff/ff_lib.py:build_Omega", "src/ff/ff_lib.py:build_reordering_xx_to_xp", "src/ff/ff_lib.py:build_K"]}
{"id": "C44", "title": "is_symp decides U S U^T = S", "statement": "is_symp(U) is True exactly when U S U^T is allclose to S, whatever the canonical form; it accepts every exactly symplectic matrix, and exactly symplectic matrices are closed under product, inverse and transpose.", "quantifier": "every even-dimensional matrix", "why_tests_cant": "all matrices", "anchors": ["src/ff/ff_lib.py:is_symp"]}
{"id": "C45", "title": "check_canonical_form accepts exactly the 2x2-block skew form", "statement": "Accepts every real skew block diagonal matrix with 2x2 blocks; whatever it accepts is within the allclose tolerance of such a matrix; odd or non-square shapes are rejected.", "quantifier": "every matrix", "why_tests_cant": "all matrices", "anchors": ["src/ff/ff_lib.py:check_canonical_form"]}
{"id": "C46", "title": "generate_gaussian_state returns exp(-H_op)/Tr for a 2n x 2n coefficient matrix", "statement": "For a 2n x 2n coefficient matrix with n >= 3 the result is the normalised exponential of build_op(H), a density matrix for every Hermitian Hamiltonian. For n = 1 and n = 2, where 2n = 2^n, the coefficient matrix itself is exponentiated: the documented claim is refuted there.", "quantifier": "every n and H", "why_tests_cant": "refuted for n=1 and n=2, where 2n = 2^n and H itself is exponentiated", "anchors": ["src/ff/ff_lib.py:generate_gaussian_state"]}
{"id": "C47", "title": "build_op is a Lie algebra lift", "statement": "build_op is linear in R, maps Hermitian R to Hermitian operators, and [build_op(R), alpha-combination] reproduces the action of R-commutators; entries below 1e-10 are dropped.", "quantifier": "every n and R", "why_tests_cant": "all matrices", "anchors": ["src/ff/ff_lib.py:build_op"]}
{"id": "C48", "title": "compute_cov_matrix is antisymmetric and equals Gamma - Gamma^T", "statement": "For all rho, all operator lists and every explicit n_sites the result is antisymmetric and equals the covariance matrix of the operators. The documented default n_sites=None is refuted: it raises TypeError on every input.", "quantifier": "every n, rho", "why_tests_cant": "default-argument clause refuted: TypeError on every input", "anchors": ["src/ff/ff_lib.py:compute_cov_matrix", "src/ff/ff_lib.py:compute_2corr_matrix"]}
{"id": "C49", "title": "two-point correlation matrices obey the fermionic sum rules", "statement": "Gamma + Gamma^T = Tr(rho) S, P + eta^T = Tr(rho) 1, and for states P is Hermitian with 0 <= P <= 1.", "quantifier": "every n and state", "why_tests_cant": "all states", "anchors": ["src/ff/ff_lib.py:compute_2corr_matrix", "src/ff/ff_lib.py:correlation_matrix"]}
{"id": "C50", "title": "compute_algebra_S recovers the anticommutator matrix", "statement": "For jordan_wigner_alphas(n) the result is [[0,1],[1,0]], for majoranas the identity, for every n; for any exactly scalar anticommuting family it returns the scalars (up to values allclose to 0 being dropped).", "quantifier": "every n and family", "why_tests_cant": "all n", "anchors": ["src/ff/ff_lib.py:compute_algebra_S"]}
{"id": "C51", "title": "is_matchgate compares the two 2x2 determinants", "statement": "Returns True iff the inner and corner determinants agree within tolerance; products of exact matchgates are accepted; non 4x4 input gives False.", "quantifier": "every matrix", "why_tests_cant": "all matrices", "anchors": ["src/ff/ff_lib.py:is_matchgate"]}
{"id": "C52", "title": "eigh_sp diagonalises with a symplectic unitary", "statement": "For every n >= 1, every Hermitian particle-hole symmetric H and every legal sorted real Schur decomposition, eigvalsh and argsort: no assertion fires, U is unitary and symplectic of the form [[s,t*],[t,s*]], the returned matrix is U^dagger H U, its diagonal is (-S,S) with S real and its other entries are at most 2e-10; it is exactly diag(-S,S) when no non-zero eigenvalue of H is below 1e-10 in absolute value. Refuted without that gap: for a legal Schur decomposition the result is not diagonal.", "quantifier": "every n, H and Schur output", "why_tests_cant": "all matrices and all legal LAPACK outputs", "anchors": ["src/ff/ff_lib.py:eigh_sp"]}
{"id": "C53", "title": "eigv_sp / eigm_sp / eigm_sp_can", "statement": "For every n >= 1 and legal external routines: eigv_sp returns (U^T V U, U) with the U of eigh_sp(S V), equal to [[0,S],[-S,0]] when S V is gapped; eigm_sp returns a real orthogonal O and O^T G O, equal to i[[0,S],[-S,0]] when G is gapped; eigm_sp_can returns a real orthogonal O with O^T G O, and i O^T G O is in block canonical form when G is invertible. Refuted for singular G: for a legal Schur decomposition the result is not block canonical.", "quantifier": "every n and admissible input", "why_tests_cant": "all matrices", "anchors": ["src/ff/ff_lib.py:eigv_sp", "src/ff/ff_lib.py:eigm_sp", "src/ff/ff_lib.py:eigm_sp_can"]}
{"id": "C54", "title": "random_FF_rotation yields a unitary implementing a symplectic orbital rotation", "statement": "For every special orthogonal draw the orbital matrix C is unitary and symplectic (the assertion never fires), the generator is Hermitian, the returned operator is exp(-i H), unitary, conserves fermion parity and maps every Majorana operator to a real orthogonal combination of Majorana operators. It implements exactly the orbital rotation C whenever -1 is not an eigenvalue of the draw and the generator has no non-zero entry below the cutoff of build_op; refuted otherwise (the draw -1 gives C=-1 and an operator commuting with every mode).", "quantifier": "every n and every random draw", "why_tests_cant": "all draws", "anchors": ["src/ff/ff_lib.py:random_FF_rotation"]}
{"id": "C55", "title": "random_FF_state returns normalised states", "statement": "For every draw, pure=True gives a unit vector of even parity independent of fixedN, otherwise the Gibbs state of a Hermitian generator at the drawn inverse temperature, a density matrix that conserves parity, and the particle number when fixedN=True. With a seed and returnH=True the returned generator produces the returned pure state; without a seed it is the generator of the next, independent draw.", "quantifier": "every n and draw", "why_tests_cant": "all draws", "anchors": ["src/ff/ff_lib.py:random_FF_state"]}
{"id": "C56", "title": "random qubit states are states", "statement": "random_qubit_state is a density matrix with the drawn spectrum, random_qubit_pure_state is a unit vector, for every draw of the unitary and the Dirichlet weights; invalid n raises.", "quantifier": "every n and draw", "why_tests_cant": "all draws", "anchors": ["src/ff/ff_random_states.py:random_qubit_state", "src/ff/ff_random_states.py:random_qubit_pure_state"]}
{"id": "C57", "title": "random mixed free-fermion states are states", "statement": "random_FF_state_randH and random_FF_state_rotPDF return Hermitian PSD unit-trace matrices for every draw.", "quantifier": "every n and draw", "why_tests_cant": "all draws", "anchors": ["src/ff/ff_random_states.py:random_FF_state_randH", "src/ff/ff_random_states.py:random_FF_state_rotPDF"]}
{"id": "C58", "title": "random_FF_pure_state_W0/WN are unit vectors of definite parity", "statement": "For every draw and every N in [0,n], random_FF_pure_state_W0 is the vacuum and random_FF_pure_state_WN the Fock state with the first N modes occupied (N drawn when not given), rotated by a free-fermion unitary; both are unit vectors, of fermion parity +1 and (-1)^N. N outside [0,n] or not an integer raises ValueError. Refuted: every admissible seed is accepted (WN and CN reject the largest one, 2^32-1, because they use seed+1).", "quantifier": "every n, N, draw", "why_tests_cant": "all draws", "anchors": ["src/ff/ff_random_states.py:random_FF_pure_state_W0", "src/ff/ff_random_states.py:random_FF_pure_state_WN"]}
{"id": "C59", "title": "random_FF_pure_state_CN is a unit vector", "statement": "For every orbital rotation drawn whose non-zero entries are at least 1e-9 (the cutoff of rotate_operators) and every seed vector with non-zero component in the joint vacuum of the rotated modes, no assertion fires and the result is a unit vector in which exactly the first N rotated modes are occupied; the joint vacuum exists and is unique up to a factor.", "quantifier": "every n and draw", "why_tests_cant": "all draws", "anchors": ["src/ff/ff_random_states.py:random_FF_pure_state_CN"]}
{"id": "C60", "title": "get_orthogonal_vectors completes v to an orthonormal basis", "statement": "For every vector of dimension >= 2 and norm above 1e-8 and every QR factorisation, the result is unitary with first column v/|v|; vectors of norm at most 1e-8 give the identity and dimension 1 the empty array. Refuted: every non-zero vector is completed (short ones are treated as zero).", "quantifier": "every dimension, vector, QR output", "why_tests_cant": "all vectors", "anchors": ["src/ff/ff_random_states.py:get_orthogonal_vectors"]}
{"id": "C61", "title": "build_unitary_path joins w to v through unit vectors", "statement": "For every pair of non-zero vectors of equal dimension >= 2: no assertion fires, path(0)=w/|w|, path(1)=v/|v|, |path(t)|=1 for every real t and path is an orbit of a one-parameter group of unitaries. Dimension 1 raises IndexError, different dimensions raise ValueError.", "quantifier": "every pair of non-zero vectors, dimension >= 2, all t", "why_tests_cant": "continuum of t and vectors", "anchors": ["src/ff/ff_random_states.py:build_unitary_path"]}
{"id": "C62", "title": "build_linear_path joins w to v through unit vectors", "statement": "path(0)=w/|w|, path(1)=v/|v| and |path(s)|=1 for every s at which the interpolant is non-zero; elsewhere the result is nan. Refuted: normalisation at every s (midpoint of antipodal vectors).", "quantifier": "every pair of non-zero vectors, all s", "why_tests_cant": "refuted at the midpoint of antipodal vectors", "anchors": ["src/ff/ff_random_states.py:build_linear_path"]}
{"id": "C63", "title": "seeded calls are reproducible", "statement": "Calling a random generator with an explicit seed returns a value depending on the arguments only, not on the earlier history of the global generator. For generate_random_planar_graph this holds for every seed other than 0; refuted for seed=0, which is treated as no seed.", "quantifier": "every call history, every seed, every pseudo-random generator", "why_tests_cant": "every call history, seed and generator", "anchors": ["src/ff/ff_lib.py:random_FF_rotation", "src/ff/ff_lib.py:random_FF_state", "src/ff/ff_random_states.py:random_qubit_pure_state", "src/ff/ff_graph_theory.py:generate_random_planar_graph"]}
{"id": "C64", "title": "print_custom restores the global print precision", "statement": "After print_custom returns or propagates an exception, numpy's global print precision is what it was before the call. A ValueError or TypeError of the conversion, of an invalid k or of printing the cleaned value leads to print(obj), under the old precision in the first two cases and the requested one in the third; other exceptions propagate.", "quantifier": "every object, every failure point", "why_tests_cant": "all failure points", "anchors": ["src/ff/ff_utils.py:_print", "src/ff/ff_utils.py:print_custom"]}
{"id": "C65", "title": "pure free-fermion samplers return states of zero anti-flatness", "statement": "FAF_k is exactly 0, for every order k >= 1, on every state returned by random_FF_state(pure=True), random_FF_pure_state_W0, random_FF_pure_state_WN and random_FF_pure_state_CN.", "quantifier": "every n, N, seed, draw and order", "why_tests_cant": "all draws", "anchors": ["src/ff/ff_random_states.py:random_FF_pure_state_W0", "src/ff/ff_random_states.py:random_FF_pure_state_WN", "src/ff/ff_random_states.py:random_FF_pure_state_CN", "src/ff/ff_distance_measures.py:FAF"]}
{"id": "C66", "title": "build_unitary_path is not always the shortest geodesic", "statement": "The documented claim that the path is the shortest geodesic on the unit sphere is refuted: for real unit vectors (1,0) and (c,s) with s non-zero and the Householder QR factorisation, path(1/2) is not a multiple of path(0)+path(1).", "quantifier": "every c, s, every exponential and logarithm", "why_tests_cant": "the documented examples happen to be geodesics", "anchors": ["src/ff/ff_random_states.py:build_unitary_path"]}
{"id": "C67", "title": "order and signs of the eigenvalues returned by eigh_sp", "statement": "When A is not close to 0, each non-zero returned eigenvalue S_k has the sign of the k-th eigenvalue a_k of A if that is non-zero. Without pairing terms (B=0, spectrum gapped) |S_k| = |a[q[q[k]]]| with q = argsort|a|, so S = a when A is positive semidefinite. Refuted: that the blocks are sorted in the order of A; for A = diag(-3,1,2) and every legal external routine S = (-2,3,1).", "quantifier": "every n, H and legal external routines", "why_tests_cant": "all matrices and all legal LAPACK outputs", "anchors": ["src/ff/ff_lib.py:eigh_sp"]}
{"id": "C68", "title": "generate_random_planar_graph returns the first good draw", "statement": "For n >= 2 and every legal generator the call never raises: it returns the first of at most 1000 draws that passes the planarity test and is connected, or None if there is none; a returned graph is connected, simple, has nodes 0..n-1 in order and between n-1 and 2n-3 edges, so count_perfect_matchings_planar counts its perfect matchings. For n < 2 a ValueError is raised.", "quantifier": "every n, seed, generator state and legal generator", "why_tests_cant": "all draws", "anchors": ["src/ff/ff_graph_theory.py:generate_random_planar_graph"]}
{"id": "C69", "title": "graph built by plot_graph_with_edge_weights", "statement": "For every real square matrix that is symmetric within numpy's tolerances an undirected graph on 0..n-1 is returned with one edge per non-zero entry above the diagonal, otherwise a directed one with one edge per non-zero entry; weights are the entries rounded to 4 decimals. A simple graph argument with non-zero weights comes back with nodes replaced by positions, and unchanged if it has nodes 0..n-1 and weights of at most 4 decimals. Refuted: that every non-zero entry is an edge weight (in the symmetric case the diagonal is ignored and small entries below it may be lost, and entries below 5e-5 give edges of weight 0). Arrays that are not square raise ValueError unless a dimension is 1.", "quantifier": "every matrix and simple graph", "why_tests_cant": "all matrices", "anchors": ["src/ff/ff_graph_theory.py:plot_graph_with_edge_weights"]}
{"id": "C70", "title": "two-point correlations of Gaussian states follow the Fermi-Dirac function", "statement": "For n >= 3 and every Hermitian coefficient matrix H, with K = H - S H^T S after the cutoff of build_op (2H when H is particle-hole antisymmetric and has no entry below the cutoff): compute_2corr_matrix(rho, conjugation=-1)^T = (1+exp K)^-1, compute_2corr_matrix(rho, conjugation=1) = (1+exp(-K))^-1 and compute_cov_matrix(rho) = (1+exp K)^-1 (exp K - 1) S for rho = generate_gaussian_state(n,H); in particular modes of real energies e_k have occupation numbers 1/(1+exp e_k).", "quantifier": "every n >= 3, Hermitian H and matrix exponential", "why_tests_cant": "a statement about the whole spectrum for every size", "anchors": ["src/ff/ff_lib.py:generate_gaussian_state", "src/ff/ff_lib.py:compute_2corr_matrix", "src/ff/ff_lib.py:compute_cov_matrix"]}
{"id": "C71", "title": "Wick's theorem for Gaussian states and free-fermion samplers", "statement": "For the states of generate_gaussian_state (n >= 3), random_FF_state (pure or mixed), random_FF_state_randH, random_FF_pure_state_W0, _WN and _CN: the expectation of every product of linear combinations of ladder operators, of any length, order and with repetitions, equals pf of the antisymmetric matrix of the pairwise expectations.", "quantifier": "every n, draw, seed, product length and operators", "why_tests_cant": "products of every length", "anchors": ["src/ff/ff_lib.py:generate_gaussian_state", "src/ff/ff_combinatorics.py:pf", "src/ff/ff_random_states.py:random_FF_pure_state_WN"]}
{"id": "C72", "title": "eigh_sp diagonalises the many-body operator", "statement": "For every n >= 1 and every Hermitian particle-hole symmetric H whose spectrum has the gap of C52 and whose non-zero entries are at least 1e-10 (the cutoff of build_op), with (diag(-S,S), U) = eigh_sp(H): build_op(n,H,alphas) = sum_k S_k (b_k^+ b_k - b_k b_k^+), where the b_k^+ are rotate_operators(U, alphas, Left=True) (no entry of U below 1e-9) and satisfy the anticommutation relations. So its characteristic polynomial has exactly the 2^n roots sum_k (+-)S_k with multiplicity, the ground state energy is -sum_k |S_k| and tr exp(-beta build_op) = prod_k 2cosh(beta S_k).", "quantifier": "every n, H, beta and legal external routines", "why_tests_cant": "2^n eigenvalues for every n", "anchors": ["src/ff/ff_lib.py:eigh_sp", "src/ff/ff_lib.py:build_op", "src/ff/ff_lib.py:rotate_operators"]}
{"id": "C73", "title": "pfaffian of the matrices made with pfo_algorithm", "statement": "For every connected plane graph with an edge and nodes 0..n-1 in order, every plane embedding, spanning tree and outer face, and real edge weights: pf of the skew matrix that count_perfect_matchings_planar builds from pfo_algorithm is, up to sign, the sum over perfect matchings of the product of weights. Refuted, tutorial: that pf(pfo_algorithm(G)) equals the number of perfect matchings. It is 1 or -1 if the spanning tree has a perfect matching and 0 otherwise (pf sees only the antisymmetric part of its argument and edges outside the tree get symmetric entries), and it is -1 for the path 0-2-1-3.", "quantifier": "every plane graph, embedding, tree and weights", "why_tests_cant": "the tutorial test calls abs(pf) on one graph after making the matrix skew by hand", "anchors": ["src/ff/ff_graph_theory.py:pfo_algorithm", "src/ff/ff_graph_theory.py:complete_face", "src/ff/ff_combinatorics.py:pf"]}
{"id": "C74", "title": "two-site free-fermion operators pass is_matchgate", "statement": "For every seed and draw random_FF_rotation(2) returns a unitary W that conserves parity and has equal determinants on the corner and the inner block, so is_matchgate(W) is True, and so is every product of any number of such rotations; the same holds for exp(c H) for every Hermitian two-site quadratic H and complex c, for the density matrices of random_FF_state(2) and for generate_gaussian_state(2,H). Refuted without quadratic: exp(c n_0 n_1) has determinants 1 and e^c. For n other than 2 sites is_matchgate is False because of the shape.", "quantifier": "every seed, draw, circuit length, Hermitian quadratic generator and prefactor", "why_tests_cant": "all draws and circuits", "anchors": ["src/ff/ff_lib.py:is_matchgate", "src/ff/ff_lib.py:random_FF_rotation", "src/ff/ff_lib.py:random_FF_state"]}
{"id": "C75", "title": "workflows shown in the documentation", "statement": "docs/examples.rst and docs/tutorials.rst: in the default output gamma of compute_2corr_matrix, gamma[i,j+n] is <a_i^+ a_j> for every density matrix. Refuted: that np.diag(gamma)[n:] are the occupation numbers (every diagonal entry is 0 for every state); that generate_gaussian_state(n,H) is the ground state (for every Hermitian H and n >= 1 it has full rank and is not a projector); that check_canonical_form(eigh_sp(H)[0]) is True (it is False whenever H has an entry above 2n 1e-8, although is_symp(U) is True); that the two-site hopping example gives a state of the hopping operator (for every amplitude t other than 0 the returned matrix does not conserve parity).", "quantifier": "every n, state, Hermitian H, amplitude t and legal external routines", "why_tests_cant": "the documentation examples are only printed, and only run for one input", "anchors": ["docs/examples.rst", "docs/tutorials.rst", "src/ff/ff_lib.py:compute_2corr_matrix", "src/ff/ff_lib.py:check_canonical_form", "src/ff/ff_lib.py:generate_gaussian_state"]}
{"id": "C76", "title": "the Kitaev chain: many-body operator, edge modes, ground energy", "statement": "build_op of a coefficient matrix [[-A^*,B],[-B^*,A]] with Hermitian A is 2 sum A_ij a_i^+ a_j + sum (B_ij a_i a_j + h.c.) - tr A. Hence build_op(kitaev_chain(n,mu,t,delta)) is twice -mu N - t hopping + (delta sum a_i a_{i+1} + h.c.) plus n mu; the documented formula without the factor 2 and the constant is refuted. At mu = 0, delta = t the coefficient matrix has the characteristic polynomial X^2 (X-2t)^(n-1) (X+2t)^(n-1); eigh_sp returns exactly one zero energy, all others of modulus 2|t|, and the ground energy of the operator is -2(n-1)|t|; the Majorana operators a_0 + a_0^+ and i(a_{n-1} - a_{n-1}^+) of the two ends commute with the operator and every energy level contains states of both parities. With t = delta = 0 the matrix is diag(mu,-mu).", "quantifier": "every n >= 1, every real mu, t and delta that are 0 or of modulus at least 1e-10; legal external routines", "why_tests_cant": "the documentation prints zero modes for one chain; degeneracies at every length are out of reach of a test", "anchors": ["docs/examples.rst", "src/ff/ff_lib.py:kitaev_chain", "src/ff/ff_lib.py:build_op", "src/ff/ff_lib.py:eigh_sp"]}
{"id": "C77", "title": "data plotted by analyze_pdf", "statement": "For every input that cast_to_density_matrix turns into a density matrix M, and every legal eigh, analyze_pdf plots the diagonal of M and the eigenvalues of M, both rounded to 6 decimals, the eigenvalues in decreasing order. The plotted diagonal lies between the last and the first plotted eigenvalue and is majorised by the plotted eigenvalues: the sum over any k indices is at most the sum of the first k eigenvalues plus k 1e-6. For a unit vector v the series are |v_i|^2 and (1,0,...,0). An input that is not an array or list raises TypeError, an empty one ValueError, and the errors of cast_to_density_matrix are passed on.", "quantifier": "every size, density matrix, unit vector and legal eigensolver", "why_tests_cant": "all sizes and eigensolvers; the tests only look at whether matplotlib is called", "anchors": ["src/ff/ff_utils.py:analyze_pdf", "src/ff/ff_utils.py:clean", "src/ff/ff_utils.py:cast_to_density_matrix"]}
{"id": "C78", "title": "text produced by formatted_output", "statement": "For every number x and precision p >= 0 the text is a decimal numeral (optional minus sign, integer part without superfluous zeros, exactly p decimals, no point for p = 0) whose value is a multiple of 10^-p nearest to x, with ties going to an even last digit; integers and multiples of 10^-p are read back exactly. A complex number with |imag| < 1e-10 is printed as its real part, otherwise as 're + imj' (also for negative imaginary parts). A negative precision raises ValueError for numbers; other objects give str(obj). Refuted: that the text determines the number to the requested precision (for every p > 10 an imaginary part of 10^-p is dropped) and that it depends on the rounded value only (a negative number rounded to 0 keeps its sign).", "quantifier": "every rational number, complex number, integer and precision", "why_tests_cant": "all numbers and precisions", "anchors": ["src/ff/ff_utils.py:formatted_output"]}
{"id": "C79", "title": "arrows drawn by plot_planar_embedding", "statement": "For every real matrix pfo of sufficient size the highlighted arrows are one per edge {u<v} with a non-zero entry pfo[u,v], from u to v iff the entry is negative. With the matrix of pfo_algorithm (connected plane graph with an edge, nodes 0..n-1 in order; every embedding, spanning tree, outer face and real weights) every edge carries exactly one arrow, every face other than the last one has an odd number of arrows along its traversal (the last one too when n is even), and the determinant of the skew adjacency matrix along the arrows is the square of the weighted number of perfect matchings. Without pfo nothing is highlighted; an edge outside the matrix raises IndexError; a graph that is not planar is rejected.", "quantifier": "every graph, matrix, embedding, spanning tree and weights", "why_tests_cant": "all graphs; the tests only check that nothing is raised", "anchors": ["src/ff/ff_graph_theory.py:plot_planar_embedding", "src/ff/ff_graph_theory.py:pfo_algorithm"]}
{"id": "C80", "title": "inequalities between distances of distributions; stochastic maps; independent pairs", "statement": "For all inputs denoting distributions of equal length, with t the total variation distance, b the Bhattacharyya coefficient, j the Jensen-Shannon divergence and d the relative entropy: 1-b <= t, t^2 <= 1-b^2, t^2/2 <= j <= t ln 2, and when d is finite 2 t^2 <= d and -2 ln b <= d. Applying one stochastic matrix to both distributions decreases t, j and d and increases b; renaming outcomes changes nothing. For independent pairs (numpy.kron) b multiplies, d and every Renyi entropy add, t is at most the sum. The relative entropy to the uniform distribution is ln n minus the entropy.", "quantifier": "all distributions, lengths, stochastic matrices and orders", "why_tests_cant": "inequalities over all distributions; the tests compare a few values", "anchors": ["src/ff/ff_distance_measures.py:total_variation_distance", "src/ff/ff_distance_measures.py:relative_entropy", "src/ff/ff_distance_measures.py:jensen_shannon_divergence", "src/ff/ff_distance_measures.py:bhattacharyya_coeff", "src/ff/ff_distance_measures.py:renyi_entropy"]}
{"id": "C81", "title": "trace distance: quantum operations, partial traces, mixtures, products, wavefunctions", "statement": "For all density matrices of every dimension: applying one quantum operation (Kraus form, any number of terms) to both states does not increase trace_distance; neither does partial_trace_diagblocksum, and partial_trace_blockTr does not for real matrices and by at most d^2 1e-8 in general (it drops imaginary parts below 1e-8); a mixture is at most as far apart as the mixed distances; an independent third system changes nothing and for pairs the distance is at most the sum. For normalised wavefunctions it is sqrt(1-|<a|b>|^2), and the overlap is at most bhattacharyya_coeff, with equality for non-negative amplitudes.", "quantifier": "all states, dimensions, operations", "why_tests_cant": "inequalities over all states; the tests compare a few values", "anchors": ["src/ff/ff_distance_measures.py:trace_distance", "src/ff/ff_utils.py:partial_trace_diagblocksum", "src/ff/ff_utils.py:partial_trace_blockTr", "src/ff/ff_distance_measures.py:bhattacharyya_coeff"]}
{"id": "C82", "title": "spectrum returned by cov_distribution; rotations and thermal states", "statement": "For every density matrix rho and every legal real Schur decomposition, cov_distribution lists the eigenvalues above 1e-20 of M^T M (M the covariance matrix), each half as often as its multiplicity. So as a multiset it, and FAF exactly, depend neither on the Schur form nor on a free-fermion rotation of the state, and FAF does not decrease with its order. For uncorrelated modes with occupations f_j (up to a rotation) FAF = n - sum_j (1-2f_j)^(2k), and for the state generate_gaussian_state gives for a rotation of sum_j S_j (a_j^+ a_j - a_j a_j^+) it is n - sum_j tanh(S_j)^(2k), without the terms |1-2f_j|, |tanh S_j| <= 1e-10.", "quantifier": "every n, density matrix, rotation, order and legal Schur decomposition", "why_tests_cant": "every state and every legal LAPACK output", "anchors": ["src/ff/ff_distance_measures.py:cov_distribution", "src/ff/ff_distance_measures.py:FAF", "src/ff/ff_lib.py:generate_gaussian_state"]}
{"id": "C83", "title": "stabilizer distribution and SRE: Clifford unitaries, independent systems, bounds", "statement": "For every n >= 1 and every density matrix: conjugating by a Clifford unitary permutes stabilizer_distribution and leaves SRE unchanged at every order; the distribution of rho (x) sigma is the list of products p_i q_j. For pure states SRE is additive over tensor products at every order, does not increase with the order, is at most n ln 2, and from order 2 on at most ln((2^n+1)/2); the qubit (1 + (X+Y+Z)/sqrt 3)/2 attains the last bound.", "quantifier": "every n, state, Clifford unitary and order", "why_tests_cant": "all sizes, states and real orders", "anchors": ["src/ff/ff_distance_measures.py:SRE", "src/ff/ff_distance_measures.py:stabilizer_distribution", "src/ff/ff_distance_measures.py:renyi_entropy"]}
{"id": "C84", "title": "states of zero anti-flatness are the pure Gaussian states", "statement": "For every density matrix rho of n sites, every order k >= 1 and every legal real Schur decomposition: FAF_k(rho) = 0 iff rho is the projector on the vacuum of n modes that are linear in the ladder operators and satisfy the canonical anticommutation relations. Such a rho is pure, has definite fermion parity, satisfies Wick's theorem (with pf) for products of any length, and is the only density matrix with its covariance matrix. Every other density matrix has 0 < FAF_k <= n.", "quantifier": "all n, all density matrices, all orders k >= 1", "why_tests_cant": "the converse direction quantifies over all states with a given covariance matrix", "anchors": ["src/ff/ff_distance_measures.py:FAF", "src/ff/ff_distance_measures.py:cov_distribution", "src/ff/ff_lib.py:compute_cov_matrix", "src/ff/ff_combinatorics.py:pf"]}
{"id": "C85", "title": "covariance matrices of reduced states and of products; additivity of FAF", "statement": "For every matrix M of n+m sites, compute_cov_matrix of partial_trace_diagblocksum(M, 2^m) (the last m sites), with the Majorana or the default operators, is the block of the covariance matrix of M at the modes of those sites; for partial_trace_blockTr(M, 2^n) the same holds for the first n sites exactly when M is real and within 4^n 1e-8 always. The covariance matrix of kron(rho, sigma) has the blocks of the factors, and its other entries are 2 tr(rho gamma_i P) tr(sigma gamma_j) with the fermion parity P, so they vanish when rho or sigma conserves parity. In that case cov_distribution of the product is the union of those of the factors and FAF is additive at every order. Refuted without parity conservation: for two copies of (|0>+|1>)/sqrt 2 FAF is smaller than the sum by more than 1/2.", "quantifier": "every n, m, matrix, pair of density matrices, order and legal Schur decomposition", "why_tests_cant": "every size and state; Jordan-Wigner strings across the cut cancel only in the even sector", "anchors": ["src/ff/ff_lib.py:compute_cov_matrix", "src/ff/ff_lib.py:jordan_wigner_majoranas", "src/ff/ff_utils.py:partial_trace_diagblocksum", "src/ff/ff_utils.py:partial_trace_blockTr", "src/ff/ff_distance_measures.py:FAF", "src/ff/ff_distance_measures.py:cov_distribution"]}
{"id": "C86", "title": "dt, pt, pf, hf: direct sums, row expansions, symmetries; matchings of unions and of complete graphs", "statement": "For all square matrices A and B of every size, symmetric or not: each of dt, pt, pf and hf of kron_plus(A,B) is the product of its values on A and B. pf is the pfaffian of the antisymmetric part and hf the hafnian of the symmetric part of the argument. dt and pt expand along every row into the values without that row and the column of the entry, hf of a symmetric matrix along the first row into the values without the two rows and columns of the entry. hf is unchanged by transposition and by permuting rows and columns alike, and scaling row and column i by c_i multiplies it by prod c_i. hf of a 2k x 2k matrix with all off-diagonal entries 1 is 1*3*...*(2k-1). hf of the adjacency matrix is multiplicative over disjoint unions of simple graphs; the number of matchings listed by find_perfect_matchings_brute is multiplicative up to 15 nodes in total, and 1*3*...*(2k-1) for the complete graph on 2k <= 15 nodes.", "quantifier": "all matrices, sizes and simple graphs", "why_tests_cant": "all sizes and entries; the tests compare with values for a few small matrices", "anchors": ["src/ff/ff_combinatorics.py:dt", "src/ff/ff_combinatorics.py:pt", "src/ff/ff_combinatorics.py:pf", "src/ff/ff_combinatorics.py:hf", "src/ff/ff_utils.py:kron_plus", "src/ff/ff_graph_theory.py:find_perfect_matchings_brute"]}
{"id": "C87", "title": "Stabilizer states: random_CHP_state, stabilizer group of zero SRE, integer FAF", "statement": "A pure state of zero SRE at some finite order is a stabilizer state in the full sense: exactly 2^n Pauli strings have non-zero expectation, each expectation is 1 or -1 and the state is an eigenvector, these strings commute and are closed under products up to sign, the state is their normalised signed sum, and a vector is in its range iff every one of them acts on it by its sign. For every state, mixed or pure, with all Pauli expectations in {0,1,-1}, the Majorana covariance matrix has entries 0, 1, -1 with at most one non-zero entry in a row; cov_distribution is a list of m ones with 2m the number of non-zero entries, and FAF is the integer n-m at every order k >= 1. If stim returns the first column of a Clifford unitary, random_CHP_state returns a unit column of dimension 2^n with 2^n entries 2^-n and zeros as stabilizer distribution, zero SRE at every order and integer FAF; it raises TypeError for a non-integer and ValueError exactly for n <= 0.", "quantifier": "all n, all states, all orders, all Clifford unitaries", "why_tests_cant": "all states and sizes; the tests check shape and norm for a few n and skip when stim is missing", "anchors": ["src/ff/ff_random_states.py:random_CHP_state", "src/ff/ff_distance_measures.py:SRE", "src/ff/ff_distance_measures.py:stabilizer_distribution", "src/ff/ff_distance_measures.py:FAF", "src/ff/ff_distance_measures.py:cov_distribution"]}
{"id": "C88", "title": "The two parts of a pure state: Schmidt spectra and equal FAF", "statement": "For every unit vector of a product space of dimensions d and e, partial_trace_blockTr (exact for real vectors, otherwise within 1e-8 entrywise) and partial_trace_diagblocksum give two matrices with the same non-zero eigenvalues with multiplicity: positive, at most min(d,e) of them, summing to 1; so the purities agree. For every state of n+m sites with FAF 0 at some order k >= 1, the cov_distribution of the first n sites with m ones appended is a permutation of that of the last m sites with n ones appended, and FAF of the two parts is the same number at every order k >= 1; the same holds of the matrices returned by the two partial trace functions when the reduced matrix is real or has some imaginary part above 1e-8.", "quantifier": "all dimensions, all unit vectors; all n, m, all states of zero FAF, all orders", "why_tests_cant": "all bipartitions and all pure Gaussian states; the tests trace out single product states", "anchors": ["src/ff/ff_utils.py:partial_trace_blockTr", "src/ff/ff_utils.py:partial_trace_diagblocksum", "src/ff/ff_distance_measures.py:FAF", "src/ff/ff_distance_measures.py:cov_distribution"]}
{"id": "C89", "title": "Ground states of the operators built by build_op", "statement": "For every Hermitian particle-hole symmetric coefficient matrix H (no gap or size condition) let H' be H without the entries of modulus below 1e-10. The characteristic polynomial of H' is prod_k (X^2 - S_k^2) with S_k >= 0; every state has energy tr(rho build_op(H)) >= -sum_k S_k. If H' is invertible exactly one state, pure or mixed, has this energy; it is a projector on a unit vector of definite fermion parity with FAF = 0 at every order. If H' is singular there are two unit vectors of opposite fermion parities with this energy, both with FAF = 0. Conversely every state of n >= 1 sites with FAF = 0 at some order is the only state of lowest energy of build_op(H) for some Hermitian particle-hole symmetric H with H^2 a positive multiple of the identity. The Kitaev chain at mu = 0, delta = t has two Gaussian ground states of opposite parities.", "quantifier": "all n >= 1, all H, all states, all orders", "why_tests_cant": "all Hamiltonians and all mixed competitors; tests diagonalise a few matrices", "anchors": ["src/ff/ff_lib.py:build_op", "src/ff/ff_lib.py:kitaev_chain", "src/ff/ff_distance_measures.py:FAF"]}
{"id": "C90", "title": "What plot_graph_with_edge_weights draws", "statement": "For every n x n real array, list of edges to highlight and title the call succeeds iff all ends of the highlighted edges are below n (KeyError otherwise). Every node is drawn and named once; every edge of the returned graph is drawn once in grey, curved iff the graph is directed, and carries exactly one text, its weight, within 5e-5 of the entry; the lines are exactly the non-zero entries (above the diagonal when the array is nearly symmetric); the highlighted edges are drawn as given; there is one title. For a simple graph with non-zero weights a perfect matching can be highlighted iff the nodes are 0..n-1 in some order; if they are in this order the matchings of find_perfect_matchings_brute are highlighted on drawn edges and cover every drawn node exactly once. Refuted for other orders: nodes are replaced by their positions and the highlighted lines need not be edges.", "quantifier": "all n, all arrays, all matchings, all simple graphs", "why_tests_cant": "pictures are not compared by tests; all labelings", "anchors": ["src/ff/ff_graph_theory.py:plot_graph_with_edge_weights", "src/ff/ff_graph_theory.py:_draw_labeled_graph", "src/ff/ff_graph_theory.py:_draw_labeled_multigraph", "src/ff/ff_graph_theory.py:find_perfect_matchings_brute"]}
{"id": "C91", "title": "Thermal states: least free energy and the zero-temperature limit", "statement": "For every Hermitian 2^n x 2^n H the state returned by generate_gaussian_state is the unique minimiser of tr(sigma H) - S(sigma) over all density matrices, S being renyi_entropy of order 1 of sigma written in an eigenbasis; the minimum is -ln sum exp(-d_i) over the eigenvalues of H. If v is a ground state with gap g, trace_distance between the state returned for beta H and v is 1 - <v|rho|v> and at most (2^n - 1) exp(-beta g), hence tends to 0. For a Hermitian particle-hole symmetric coefficient matrix on n >= 3 sites with energies S_k >= 0 the distance to the ground state of build_op(H) is exactly 1 - prod_k 1/(1 + exp(-2 S_k)), at most sum_k exp(-2 S_k). FAF of order k of a free-fermion thermal state is positive and at most 4k sum_j exp(-2|S_j|).", "quantifier": "all n, all Hermitian H, all states sigma, all temperatures", "why_tests_cant": "optimality over all states; limits", "anchors": ["src/ff/ff_lib.py:generate_gaussian_state", "src/ff/ff_distance_measures.py:trace_distance", "src/ff/ff_distance_measures.py:renyi_entropy", "src/ff/ff_distance_measures.py:FAF", "src/ff/ff_lib.py:build_op"]}
{"id": "C92", "title": "Continuity of the covariance matrix and of FAF", "statement": "For any two states of n sites the entries of the Majorana covariance matrices returned by compute_cov_matrix differ by at most 2 t, t being trace_distance of the states, and their FAF of order k >= 1 differ by at most 4 n k t + 2n 1e-20^k (the last term for the entries below 1e-10 that cov_distribution drops). Hence FAF/(4 n k) bounds from below the trace distance to every state with orthogonal covariance matrix (every pure Gaussian state), and mixing a fraction p of any other state into a state moves FAF by at most 4 n k p + 2n 1e-20^k.", "quantifier": "all n, k >= 1, all pairs of density matrices", "why_tests_cant": "inequality over all pairs of states of every size", "anchors": ["src/ff/ff_distance_measures.py:FAF", "src/ff/ff_distance_measures.py:cov_distribution", "src/ff/ff_distance_measures.py:trace_distance", "src/ff/ff_lib.py:compute_cov_matrix"]}
{"id": "C93", "title": "The messages that the functions print", "statement": "Printing does not change a result: every function returns the same value (or raises the same exception) with its print calls as without, except that compute_algebra_S with verbose=True raises ValueError for a single operator, where verbose=False returns the empty array (its report takes the maximum of no eigenvalues). generate_pauli_group(n, verbose=True) prints 4^n words and the k-th word names the factors of the k-th operator. On every connected plane graph with real weights pfo_algorithm prints 'Complete pfo' and nothing else, so no warning of complete_face and no 'Incomplete pfo'; with verbose=True the result is the same and every face but the last is plotted exactly once. is_symp is silent for every unitary matrix that is symplectic or has the conjugate block form. compute_algebra_S prints no error for operators with scalar anticommutators; for the Jordan-Wigner ladder operators the verbose report is: symmetric, rank 2n, trace 0, and under the label 'Eigenvalue max,min:' the values -1, 1 (minimum first). stabilizer_distribution prints its warning only in calls that raise AssertionError. With verbose=True rotate_operators prints for every j a heading and one line for each coefficient of at least 1e-9 of the row that is applied, build_op the sum of the terms so far after each entry of at least 1e-10, complete_face the unassigned edges and the product of the other signs, is_matchgate the two determinants (inner first). complete_face warns exactly when the face has none, or more than one, unassigned edge; check_canonical_form names the test that failed. The remaining messages appear exactly for the inputs on which the function reports failure.", "quantifier": "all inputs, all n, all connected plane graphs with real weights", "why_tests_cant": "output of every call for all inputs, including the absence of warnings", "anchors": ["src/ff/ff_lib.py:generate_pauli_group", "src/ff/ff_lib.py:is_symp", "src/ff/ff_lib.py:compute_algebra_S", "src/ff/ff_lib.py:check_canonical_form", "src/ff/ff_lib.py:generate_gaussian_state", "src/ff/ff_lib.py:build_op", "src/ff/ff_lib.py:rotate_operators", "src/ff/ff_lib.py:is_matchgate", "src/ff/ff_lib.py:permutation_to_matrix", "src/ff/ff_combinatorics.py:dt_eigen", "src/ff/ff_graph_theory.py:pfo_algorithm", "src/ff/ff_graph_theory.py:complete_face", "src/ff/ff_graph_theory.py:find_perfect_matchings_brute", "src/ff/ff_distance_measures.py:stabilizer_distribution"]}
{"id": "C94", "title": "pf, hf, pt and dt on fixed-width integer arrays", "statement": "On an array of w-bit signed integers (numpy's int64 for nested lists of ints) dt and pt return the determinant and the permanent reduced to w bits, however many intermediate products and sums overflow; they are exact exactly when the value itself fits. pf and hf reduce the sum over all permutations, 2^k k! times the value (n = 2k rows), before dividing, so they are exact exactly when that sum fits. With entries of size at most B, dt and pt are exact when n! B^n < 2^(w-1), pf and hf when n! B^(n/2) < 2^(w-1): every 0/1 matrix with up to 20 rows in int64. The documented value is refuted beyond: the permanent of the all-ones matrix and the hafnian of the all-ones matrix are returned exactly only while n! < 2^(w-1) (in int64 not for 21, respectively 22 rows).", "quantifier": "all widths from 2 bits on, all sizes, all integer matrices", "why_tests_cant": "the failing sizes need 21! permutations", "anchors": ["src/ff/ff_combinatorics.py:pf", "src/ff/ff_combinatorics.py:hf", "src/ff/ff_combinatorics.py:pt", "src/ff/ff_combinatorics.py:dt"]}
{"id": "C95", "title": "Element types accepted by rotate_operators and build_op", "statement": "The in-place sums of rotate_operators and build_op start from np.zeros_like(alphas[0]): the call raises TypeError exactly when some coefficient of size at least 1e-9 (1e-10 in build_op) gives a term of a higher kind (integer < real < complex) than the first operator; otherwise every result has the type of the first operator and the value of the computation with exact complex numbers. A complex first operator is never refused; the Jordan-Wigner operators of the library, built from integer, real and complex factors, are all complex. Two natural expectations are refuted: real or integer operators with a complex array of coefficients are refused even if all its values are real, and the outcome depends on the order of the operators.", "quantifier": "all sizes, operators, coefficient arrays and element types", "why_tests_cant": "a test uses one combination of types", "anchors": ["src/ff/ff_lib.py:rotate_operators", "src/ff/ff_lib.py:_perform_rotation", "src/ff/ff_lib.py:build_op", "src/ff/ff_lib.py:jordan_wigner_alphas"]}
{"id": "C96", "title": "Rounding errors of pf, hf, pt and dt", "statement": "If every multiplication, addition and division has a relative error of at most u, the loops of pt and dt on an n x n array return the permanent and the determinant up to ((1+u)^(n + n!) - 1), resp. ((1+u)^(n + 1 + n!) - 1), times the permanent of the moduli; hf and pf on 2k x 2k arrays return their exact values up to the factors with k + (2k)! + 1 and k + (2k)! + 2 roundings, times hf of the moduli; (1+u)^m - 1 is at most m u / (1 - m u) while m u < 1. If operations with integer results below L are exact, integer arrays with entries of size at most B give exact pt, dt when n! B^n < L and exact pf (antisymmetric), hf (symmetric) when (2k)! B^k < L. Round-to-nearest-even arithmetic with 53 bits satisfies these with u = 2^-53 and L = 2^53, so 0/1 arrays with up to 18 rows are counted exactly in float64; exactness for all integer arrays is refuted by a 2 x 2 array.", "quantifier": "all sizes, all entries, all rounded operations with the stated error", "why_tests_cant": "needs worst-case inputs and n! terms", "anchors": ["src/ff/ff_combinatorics.py:pf", "src/ff/ff_combinatorics.py:hf", "src/ff/ff_combinatorics.py:pt", "src/ff/ff_combinatorics.py:dt"]}
{"id": "C97", "title": "Rounding errors of rotate_operators and build_op", "statement": "If every product and sum of numbers has a relative error of at most u and coefficients are skipped only when their modulus is at most t, rotate_operators on n operators returns each entry of sum_i c_ji A_i up to ((1+u)^(n+1) - 1) sum_i |c_ji||A_i| plus t times the moduli of the skipped operators. With a matrix product of m roundings, build_op returns each entry of sum_ij R_ij A_i^dagger A_j (A_i A_j with direct) up to ((1+u)^(m + 1 + (2n)^2) - 1) sum_ij |R_ij| (|A_i^dagger| |A_j|) plus t times the moduli of the skipped products. A product by loops has m = N + 1. Complex arithmetic made of 53-bit real operations has u = 2((1+2^-53)^2 - 1), so both bounds hold in complex128 with t = 1e-9 and 1e-10. Without the term in t no relative bound below 1 holds.", "quantifier": "all numbers and sizes of operators, all coefficient matrices, all rounded operations with the stated error", "why_tests_cant": "needs worst-case inputs for every size and every order of rounding", "anchors": ["src/ff/ff_lib.py:rotate_operators", "src/ff/ff_lib.py:_perform_rotation", "src/ff/ff_lib.py:build_op"]}
{"id": "C98", "title": "Numerical errors in the planar count", "statement": "Let the determinant computed by dt_eigen be off by at most d and np.sqrt have relative error v. On a connected plane graph numbered 0..n-1 with an edge, count_perfect_matchings_planar returns, for weights whose sum over perfect matchings has modulus h > 0, a float within e + 0.5e-10 of h when e = v (h + d/h) + d/h < 1e-10; without weights exactly the number m > 0 of perfect matchings when e < 0.5e-10, and 0 when there are none and (1 + v) sqrt(d) < 0.5e-10. An error of 1e-18 in the determinant makes it report 1e-9 for any graph without perfect matchings. Eigenvalues and products with relative error u give a determinant with relative error (1+u)^(2n) - 1, and then the count is exact for every m, 0 included, as long as the errors scaled by m stay below 0.5e-10.", "quantifier": "all such graphs, embeddings, spanning trees, all error-bounded eigenvalue and root routines", "why_tests_cant": "the routines are floating-point and the bound is on worst cases", "anchors": ["src/ff/ff_graph_theory.py:count_perfect_matchings_planar", "src/ff/ff_combinatorics.py:dt_eigen", "src/ff/ff_utils.py:clean"]}
{"id": "C99", "title": "Rounding errors of covariance and correlation matrices", "statement": "If differences have a relative error of at most u, matrix products of size N have m and traces t roundings, then every entry of compute_2corr_matrix (for each of the three kinds of conjugation) is off by at most ((1+u)^(2m + t) - 1) times the sum of the moduli of all terms of its trace, and every entry of compute_cov_matrix by at most ((1+u)^(2m + t + 1) - 1) times that sum for both traces. For the Jordan-Wigner operators (the default, and those of correlation_matrix) these sums are at most the sum of the moduli of the entries of rho. With products and traces by loops in complex128 there are 3 2^n + 2, resp. 3 2^n + 3, operations.", "quantifier": "all rho, all families of operators, all numbers of sites, all rounded operations with the stated error", "why_tests_cant": "needs worst-case inputs for every size", "anchors": ["src/ff/ff_lib.py:compute_cov_matrix", "src/ff/ff_lib.py:correlation_matrix", "src/ff/ff_lib.py:compute_2corr_matrix"]}
{"id": "C100", "title": "Rounding errors of total_variation_distance and linear_entropy", "statement": "For any cast_to_pdf, exact or rounded, if differences and products have a relative error of at most u and sums of n terms t(n) roundings, total_variation_distance of two distributions with n values has a relative error of at most (1+u)^(t(n)+2) - 1. It is 0 exactly for equal distributions when that is below 1. If moreover square roots have a relative error of at most u and that of k^2 is exact, and dot products have t(n) roundings, linear_entropy of k^2 values returns 1 - S, S the sum of the squares, up to e = ((1+u)^(t(k^2)+4) - 1)(1+S), and its assertions hold when 2e is at most 1e-8. With loops in float64 this covers every distribution of k^2 values with k up to 2^11, and the distance is 0 exactly for equal distributions of up to 2^22 values. For wavefunctions with the rounded cast_to_pdf of C101 in complex128, linear_entropy (up to 2^18 amplitudes) is 1 minus the sum of the |v_i|^4, and the distance (up to 2^19) that of the |v_i|^2, up to explicit errors.", "quantifier": "all distributions, all rounded operations with the stated errors", "why_tests_cant": "needs worst-case inputs for every size; the internal assertion compares two rounded values", "anchors": ["src/ff/ff_distance_measures.py:linear_entropy", "src/ff/ff_distance_measures.py:total_variation_distance"]}
{"id": "C101", "title": "Rounding errors of cast_to_density_matrix and cast_to_pdf", "statement": "Assume products and square roots with a relative error of at most u, sums of n terms and traces with t(n) roundings, and eigenvalues of Hermitian matrices with an error of at most d(n) times the Frobenius norm. A vector whose sum of squared moduli is 1 up to eta is accepted when eta + ((1+u)^(t(n)+1) - 1)(1+eta) is at most 1e-8 and (u + d(n)(1+u))(1+eta) at most 1e-12. The entries of the returned matrix are v_i conj(v_j) up to u |v_i| |v_j|, the probabilities of cast_to_pdf real and |v_i|^2 up to u |v_i|^2. A positive semidefinite matrix, not 1x1, of trace 1 up to eta is returned unchanged under similar conditions, and so is the diagonal matrix of a non-negative vector of sum 1 up to eta if its 2-norm is away from 1 by more than the tolerance 1e-8 + 1e-5 and the rounding errors. With loops in complex128, d(n) at most 5e-13 and eta = 1e-9, this covers all wavefunctions with up to 2^19 entries. Rows and columns are treated like 1-D vectors, and vectors whose norms are both away from 1 by more than the tolerance and the rounding errors raise ValueError.", "quantifier": "all vectors and matrices of all sizes, all rounded operations with the stated errors", "why_tests_cant": "needs worst-case inputs for every size; an accepted exact state could be rejected after rounding", "anchors": ["src/ff/ff_utils.py:cast_to_density_matrix", "src/ff/ff_utils.py:cast_to_pdf"]}
{"id": "C102", "title": "Rounding errors of trace_distance", "statement": "Assume entrywise differences, absolute values and the product with 1/2 with a relative error of at most u, differences that commute with complex conjugation, sums of n terms with t(n) roundings, and eigenvalues of Hermitian n x n matrices with an error of at most d(n) times the Frobenius norm, in any order. For inputs that cast_to_density_matrix turns into Hermitian n x n matrices A and B, trace_distance returns D = half the sum of the moduli of the eigenvalues of A - B up to a relative error of (1 + sqrt(n) u)(1 + n d(n))(1+u)^(t(n)+2) - 1. If this is less than 1, the result is 0 exactly for A = B. Complex128 subtraction and loops satisfy the assumptions with t(n) = n + 1.", "quantifier": "all Hermitian A, B of all sizes, all rounded operations with the stated errors", "why_tests_cant": "needs worst-case inputs for every size; the difference of two close states could lose all its digits", "anchors": ["src/ff/ff_distance_measures.py:trace_distance"]}
