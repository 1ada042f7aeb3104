#!/usr/bin/env python3
# Regenerates properties.jsonl (one JSON object per line).  Run: python3 tools/genprops.py
import json, os
P = []
def p(id, title, statement, quantifier, why, anchors):
    P.append(dict(id=id, title=title, statement=statement, quantifier=quantifier, why_tests_cant=why, anchors=anchors))
CO="src/ff/ff_combinatorics.py"; GR="src/ff/ff_graph_theory.py"; UT="src/ff/ff_utils.py"; DM="src/ff/ff_distance_measures.py"; LB="src/ff/ff_lib.py"; RS="src/ff/ff_random_states.py"
p("C01","sgn is the signature of the permutation","For every permutation p of 0..n-1 given as a list, sgn(p) is +1 if p is even and -1 if p is odd in the group-theoretic sense (parity of the number of transpositions it factors into); consequently sgn is multiplicative and changes sign under a transposition.","every n and every permutation of range(n)","there are n! permutations for each n",[f"{CO}:sgn"])
p("C02","dt is the determinant","For every n x n matrix, dt(A) returns the Leibniz determinant of A; hence dt(AB)=dt(A)dt(B), dt(A^T)=dt(A), dt(I)=1, dt vanishes on repeated rows, and dt of the empty matrix is 1. If A has fewer columns than rows (n >= 1) the call raises IndexError.","every n and every matrix over a field of numbers","all sizes and all entries",[f"{CO}:dt"])
p("C03","pt is the permanent","For every n x n matrix, pt(A) is the permanent: invariant under row and column permutations and transposition, multiplicative under row scaling, and equal to the number of permutations supported on the ones of a 0/1 matrix.","every n, every matrix, every row/column permutation","all sizes, entries and permutations",[f"{CO}:pt"])
p("C04","pfaffian squares to the determinant","For every skew-symmetric n x n matrix A (any n), pf(A)^2 = dt(A); in particular pf is 0 for odd n.","every n and every skew-symmetric matrix","polynomial identity in n(n-1)/2 variables for every n",[f"{CO}:pf",f"{CO}:dt"])
p("C05","pfaffian transformation law","For every skew-symmetric A and every B of the same size, pf(B A B^T) = dt(B) pf(A) (in particular pf(cA)=c^(n/2) pf(A) and simultaneous row/column permutation multiplies pf by sgn).","every n, A skew-symmetric, B arbitrary","quantifies over pairs of matrices of every size",[f"{CO}:pf",f"{CO}:dt"])
p("C06","pf/hf count each perfect matching exactly once","For symmetric A hf(A) is the sum over perfect matchings of {0..n-1} of the product of the entries on the matched pairs, and for skew-symmetric A pf(A) is the same sum with each matching weighted by its sign; hf and pf are 0 for odd n.","every even n and every (skew-)symmetric matrix","the n!/(2^k k!) over-counting argument must hold for every n",[f"{CO}:pf",f"{CO}:hf"])
p("C07","bipartite reductions","hf([[0,A],[A^T,0]]) = pt(A) and pf([[0,A],[-A^T,0]]) = (-1)^(n(n-1)/2) dt(A) for every n x n matrix A.","every n and every A","all sizes and entries",[f"{CO}:hf",f"{CO}:pt",f"{CO}:pf",f"{CO}:dt"])
p("C08","dt_eigen agrees with dt","For every square matrix the product of the eigenvalues returned by dt_eigen equals dt(A); for a non-square matrix dt_eigen returns None.","every matrix over the complex numbers","all sizes and entries, including defective matrices",[f"{CO}:dt_eigen",f"{CO}:dt"])
p("C09","brute-force matching enumeration is sound, complete and duplicate-free","For every simple graph with at most 15 nodes, find_perfect_matchings_brute returns exactly the perfect matchings of the graph (sets of edges covering each node exactly once), each exactly once.","every simple graph with n <= 15 nodes, any node labels and edge order","number of graphs is 2^(n choose 2)",[f"{GR}:find_perfect_matchings_brute"])
p("C10","brute-force count equals the hafnian of the adjacency matrix","For every simple graph on at most 15 nodes, len(find_perfect_matchings_brute(G)) = hf(adjacency matrix of G).","every simple graph with at most 15 nodes","cross-function identity over all graphs",[f"{GR}:find_perfect_matchings_brute",f"{CO}:hf"])
p("C11","count_perfect_matchings counts perfect matchings of non-planar graphs of every size","For every non-planar graph, count_perfect_matchings(G) is the number of perfect matchings of G.","every non-planar graph","size limit hidden in a print statement: false for graphs with more than 15 nodes (refutation expected)",[f"{GR}:count_perfect_matchings",f"{GR}:find_perfect_matchings_brute"])
p("C12","faces partitions the directed edges","For every graph with at least one edge and every rotation system (embedding) on it, faces(graph, emb) terminates and returns closed walks following the embedding such that every directed edge (u,v),(v,u) occurs exactly once in exactly one face; moving the outer face last only reorders faces.","every finite graph, every embedding, every outer face reported by networkx","loop termination and partition over all embeddings",[f"{GR}:faces"])
p("C13","complete_face fixes the parity of the face and touches one edge only","If exactly one edge of the face is unassigned and the assigned ones are +-1, then after complete_face the product over the face of the orientation signs seen along the traversal is -1 (odd number of edges against the traversal), only the two matrix entries of that edge change, and both become +-1; with no unassigned edge nothing changes and None is returned.","every orientation matrix and every face traversal","all faces, traversals, sign patterns",[f"{GR}:complete_face"])
p("C14","pfo_algorithm orients every edge and makes every non-root face odd","For every connected plane graph with nodes 0..n-1 in order on which pfo_algorithm returns, every edge of the graph receives +-1, non-edges receive 0, and every face other than the last one in the face list has an odd number of edges traversed against orientation.","every connected plane graph, every spanning tree choice, every face order","invariant over the leaf-stripping loop for every graph",[f"{GR}:pfo_algorithm",f"{GR}:complete_face",f"{GR}:dual_graph_H",f"{GR}:faces"])
p("C15","planar counting is correct (FKT)","For every connected plane graph with nodes 0..n-1 in order (weights allowed), count_perfect_matchings_planar returns the (weighted) number of perfect matchings up to sign of the weights' sum: sqrt(det) = |sum over perfect matchings of the product of weights|.","every connected plane graph","Kasteleyn's theorem: all planar graphs",[f"{GR}:count_perfect_matchings_planar",f"{GR}:pfo_algorithm",f"{CO}:dt_eigen"])
p("C16","planar counting is independent of node labelling order","count_perfect_matchings_planar gives the number of perfect matchings for every planar graph irrespective of the order in which nodes were inserted in the graph.","every connected planar graph and every node insertion order","refutation expected: labels are used as matrix indices while networkx matrices follow insertion order",[f"{GR}:pfo_algorithm",f"{GR}:dual_graph_H",f"{GR}:count_perfect_matchings_planar"])
p("C17","planar counting is total on planar graphs","count_perfect_matchings returns a count for every planar graph, including disconnected graphs and graphs without edges.","every planar graph","refutation expected: disconnected graphs fail the tree assertion and edgeless graphs raise ValueError",[f"{GR}:count_perfect_matchings",f"{GR}:faces",f"{GR}:pfo_algorithm"])
p("C18","dual_graph_H has one vertex per face and one edge per shared non-tree edge","For every face list and spanning tree, dual_graph_H(G,F,T) has vertices 0..len(F)-1 and joins two faces iff they share an edge of G not in T.","every graph, face partition, spanning tree","all inputs",[f"{GR}:dual_graph_H"])
p("C19","compute_tree_depth is the eccentricity of the first node","compute_tree_depth returns the greatest distance from the first node for every tree and raises ValueError for every non-tree.","every graph","all trees",[f"{GR}:compute_tree_depth"])
p("C20","kron_plus is the direct sum","For all square a, b: kron_plus(a,b) is block diagonal with blocks a and b (so it is multiplicative, dt(a (+) b)=dt(a)dt(b), trace adds). For arbitrary rectangular matrices it is claimed to be [[a,0],[0,b]] as well.","every pair of matrices","rectangular case refuted: raises ValueError whenever a or b is not square",[f"{UT}:kron_plus"])
p("C21","partial traces invert the tensor product","For all square A (dA), B (dB): partial_trace_over_2(kron(A,B), dA) = Tr(B) A and partial_trace_over_1(kron(A,B), dB) = Tr(A) B; both are linear and preserve the trace; d not dividing D raises AssertionError.","every dimension pair and all matrices","all sizes and entries",[f"{UT}:partial_trace_blockTr",f"{UT}:partial_trace_diagblocksum"])
p("C22","partial trace of a state is a state","If AB is Hermitian positive semidefinite of trace 1, so are both reduced matrices, for every admissible d.","every bipartite density matrix","all states",[f"{UT}:partial_trace_blockTr",f"{UT}:partial_trace_diagblocksum"])
p("C23","clean rounds to nearest and is idempotent","For every value and digit count k, clean changes a real entry by at most 0.5*10^-k, is idempotent, keeps list length / array shape, and drops an imaginary part only if every imaginary part is below the threshold.","every scalar/list/array of numbers and every k","all real inputs",[f"{UT}:clean"])
p("C24","generate_random_bitstring has exactly k ones","For every n,k and every random draw the result is None iff k<0 or k>n, and otherwise a 0/1 array of length n with exactly k ones.","every n, k and every outcome of the random generator","all random outcomes",[f"{UT}:generate_random_bitstring"])
p("C25","cast_to_density_matrix returns a valid state or raises","Every value returned is square, Hermitian and of unit trace (up to the allclose tolerances) with eigenvalues >= -1e-12; a normalised wavefunction is mapped to |psi><psi|, a probability vector of L2 norm away from 1 to its diagonal matrix, an exact density matrix to itself; unnormalised vectors raise ValueError; the function is idempotent.","every 1-D or 2-D input array","all inputs",[f"{UT}:cast_to_density_matrix"])
p("C26","cast_to_pdf returns the measurement distribution","For every normalised wavefunction cast_to_pdf returns the Born probabilities |psi_i|^2, for every density matrix its diagonal, and for every probability vector the vector itself; the result is real with unit sum.","every input","probability-vector clause refuted: vectors within 1e-5 of a point mass are taken for wavefunctions and squared",[f"{UT}:cast_to_pdf",f"{UT}:cast_to_density_matrix"])
p("C27","total variation distance is a metric bounded by 1","On probability distributions: symmetric, zero iff equal, triangle inequality, 0 <= TV <= 1, equal to the maximal difference in probability of an event.","every finite length, all distributions","all distributions",[f"{DM}:total_variation_distance"])
p("C28","KL divergence is non-negative and zero only at equality","relative_entropy(p,q) >= 0 with equality iff p=q, infinite iff some p_i>0 has q_i=0.","all pairs of distributions of every length","Gibbs inequality over all distributions",[f"{DM}:relative_entropy"])
p("C29","Jensen-Shannon divergence is symmetric and bounded by log 2","JS(p,q)=JS(q,p), 0 <= JS <= log 2, zero iff p=q, always finite.","all pairs of distributions","all distributions",[f"{DM}:jensen_shannon_divergence"])
p("C30","Bhattacharyya coefficient lies in [0,1]","BC is symmetric, 0 <= BC <= 1, BC = 1 iff p=q, BC=0 iff disjoint supports, 1-BC <= TV.","all pairs of distributions","all distributions",[f"{DM}:bhattacharyya_coeff"])
p("C31","Renyi entropies are bounded and extremal where documented","For every order a in {0,1,inf} or positive real, 0 <= S_a(p) <= log d, S_a(uniform)=log d, S_a(point mass)=0, and S_a is non-increasing in a.","all distributions, all orders","all real orders and distributions",[f"{DM}:renyi_entropy"])
p("C32","linear entropy bounds","For every distribution whose length is a perfect square linear_entropy is 1-sum p_i^2 in [0,1-1/d], equals 1-exp(-S_2); other lengths raise AssertionError.","all distributions","all distributions and lengths; documented formula 1-d*||p||^2 refuted",[f"{DM}:linear_entropy",f"{DM}:renyi_entropy"])
p("C33","stabilizer distribution is a probability distribution","For every n >= 1 and every n-qubit density matrix, stabilizer_distribution returns 4^n non-negative numbers summing to 1 (the assertion never fires); 1x1 input raises ValueError.","every n and every state","Pauli-basis completeness for all n",[f"{DM}:stabilizer_distribution",f"{LB}:generate_pauli_group"])
p("C34","SRE is non-negative and vanishes on stabilizer states","For every pure state SRE_a >= 0 for a=2; for every state whose Pauli spectrum is flat on d elements (stabilizer states) SRE=0. Claimed for all states: SRE>0 indicates deviation.","every n and state","mixed-state clause refuted: SRE is negative for some mixed states",[f"{DM}:SRE"])
p("C35","trace distance is a metric on states bounded by 1","trace_distance is symmetric, zero iff equal, satisfies the triangle inequality, lies in [0,1], is invariant under unitary conjugation, and bounds the total variation distance of the diagonals.","all dimensions and states","all states",[f"{DM}:trace_distance",f"{DM}:total_variation_distance"])
p("C36","covariance eigenvalues and FAF bounds","For every state the covariance matrix of the Majoranas is real antisymmetric with eigenvalue magnitudes <= 1, so 0 <= FAF_k <= n for every k>=1. Documented: FAF=0 for every free-fermion state.","every n, every state, every k","docstring claim refuted: the maximally mixed (Gaussian) state has FAF = n",[f"{DM}:cov_distribution",f"{DM}:FAF"])
p("C37","permutation_to_matrix represents the permutation","For every permutation p the result maps e_i to e_p(i), is orthogonal and is multiplicative; None is returned iff some entry is out of range (or, as documented, iff the input is not a permutation).","every list","documented rejection of non-permutations refuted by [0,0]",[f"{LB}:permutation_to_matrix"])
p("C38","generate_pauli_group is the full orthogonal Pauli basis","For every n>=1 it returns 4^n Hermitian unitary 2^n x 2^n matrices in lexicographic order, traces of products are 2^n delta, every matrix is their linear combination; n<=0 raises ValueError.","every n","exponential family for all n",[f"{LB}:generate_pauli_group",f"{LB}:pauli_matrices"])
p("C39","Jordan-Wigner operators satisfy the canonical anticommutation relations","For every n and i,j: {a_i,a_j}=0, {a_i,a_j^+}=delta_ij, a_i annihilates the vacuum e_0, a_i^+ a_i is the occupation of bit i; jordan_wigner_alphas lists raising then lowering.","every number of sites and every pair of indices","2^n dimensional identity for all n",[f"{LB}:jordan_wigner_lowering",f"{LB}:jordan_wigner_alphas"])
p("C40","Majorana operators","For every n the 2n operators are Hermitian with {g_i,g_j}=delta_ij and equal rotate_operators(build_Omega(n), jordan_wigner_alphas(n)).","every n and indices","all n; documented sign of the second family refuted",[f"{LB}:jordan_wigner_majoranas",f"{LB}:build_Omega",f"{LB}:rotate_operators"])
p("C41","rotate_operators is the linear map C (resp. C^dagger) up to dropped tiny coefficients","When no entry of C is non-zero and below 1e-9 the result is exactly sum_i C_ji alpha_i (Left: conj(C_ij)); in general each entry is off by at most 1e-9 * sum |alpha_i|; rotations compose; the (C,alphas) argument order may be swapped.","every n, C, alphas","all matrices",[f"{LB}:rotate_operators",f"{LB}:_perform_rotation"])
p("C42","coefficient matrices have the documented block structure","build_H/build_V/kitaev_chain/random_H_generator return [[-A*,B],[-B*,A]] (resp. [[-Z*,A],[-A*,Z]]); with A Hermitian and B skew they are Hermitian (resp. skew) and satisfy particle-hole symmetry S H* S = -H.","every n and all blocks","all sizes and entries",[f"{LB}:build_H",f"{LB}:build_V",f"{LB}:kitaev_chain",f"{LB}:random_H_generator"])
p("C43","Omega, the reordering and K are unitary","build_Omega(n), build_reordering_xx_to_xp(n) and build_K(n) are unitary for every n; the reordering is the documented interleaving permutation; K is symplectic.","every n","all n",[f"{LB}:build_Omega",f"{LB}:build_reordering_xx_to_xp",f"{LB}:build_K"])
p("C44","is_symp decides U S U^T = S","is_symp(U) is True exactly when U S U^T is allclose to S, whatever the canonical form; it accepts every exactly symplectic matrix, and exactly symplectic matrices are closed under product, inverse and transpose.","every even-dimensional matrix","all matrices",[f"{LB}:is_symp"])
p("C45","check_canonical_form accepts exactly the 2x2-block skew form","Accepts every real skew block diagonal matrix with 2x2 blocks; whatever it accepts is within the allclose tolerance of such a matrix; odd or non-square shapes are rejected.","every matrix","all matrices",[f"{LB}:check_canonical_form"])
p("C46","generate_gaussian_state returns exp(-H_op)/Tr for a 2n x 2n coefficient matrix","The result is a density matrix for every Hermitian Hamiltonian and equals the normalised exponential of build_op(H) whenever a 2n x 2n coefficient matrix is passed.","every n and H","refuted for n=1 and n=2, where 2n = 2^n and H itself is exponentiated",[f"{LB}:generate_gaussian_state"])
p("C47","build_op is a Lie algebra lift","build_op is linear in R, maps Hermitian R to Hermitian operators, and [build_op(R), alpha-combination] reproduces the action of R-commutators; entries below 1e-10 are dropped.","every n and R","all matrices",[f"{LB}:build_op"])
p("C48","compute_cov_matrix is antisymmetric and equals Gamma - Gamma^T","For all rho and operator lists; works for default n_sites=None.","every n, rho","default-argument clause refuted: TypeError on every input",[f"{LB}:compute_cov_matrix",f"{LB}:compute_2corr_matrix"])
p("C49","two-point correlation matrices obey the fermionic sum rules","Gamma + Gamma^T = Tr(rho) S, P + eta^T = Tr(rho) 1, and for states P is Hermitian with 0 <= P <= 1.","every n and state","all states",[f"{LB}:compute_2corr_matrix",f"{LB}:correlation_matrix"])
p("C50","compute_algebra_S recovers the anticommutator matrix","For jordan_wigner_alphas(n) the result is [[0,1],[1,0]], for majoranas the identity, for every n; for any exactly scalar anticommuting family it returns the scalars (up to values allclose to 0 being dropped).","every n and family","all n",[f"{LB}:compute_algebra_S"])
p("C51","is_matchgate compares the two 2x2 determinants","Returns True iff the inner and corner determinants agree within tolerance; products of exact matchgates are accepted; non 4x4 input gives False.","every matrix","all matrices",[f"{LB}:is_matchgate"])
p("C52","eigh_sp diagonalises with a symplectic unitary","For every Hermitian particle-hole symmetric H and every valid real Schur decomposition returned by scipy, U is unitary and symplectic of the form [[s,t*],[t,s*]] and U^dagger H U is diagonal diag(-S,S).","every n, H and Schur output","all matrices and all legal LAPACK outputs",[f"{LB}:eigh_sp"])
p("C53","eigv_sp / eigm_sp / eigm_sp_can","eigv_sp returns U^T V U in Y form with the same U; eigm_sp returns a real orthogonal matrix bringing G to Y form; eigm_sp_can returns an orthogonal matrix with block canonical form.","every n and admissible input","all matrices",[f"{LB}:eigv_sp",f"{LB}:eigm_sp",f"{LB}:eigm_sp_can"])
p("C54","random_FF_rotation yields a unitary implementing a symplectic orbital rotation","For every special orthogonal draw the orbital matrix C is unitary and symplectic (the assertion never fires), the generator is Hermitian and the returned operator is unitary and conserves fermion parity.","every n and every random draw","all draws",[f"{LB}:random_FF_rotation"])
p("C55","random_FF_state returns normalised states","pure=True gives a unit vector, otherwise a Hermitian positive unit-trace matrix, for every draw.","every n and draw","all draws",[f"{LB}:random_FF_state"])
p("C56","random qubit states are states","random_qubit_state is a density matrix with the drawn spectrum, random_qubit_pure_state is a unit vector, for every draw of the unitary and the Dirichlet weights; invalid n raises.","every n and draw","all draws",[f"{RS}:random_qubit_state",f"{RS}:random_qubit_pure_state"])
p("C57","random mixed free-fermion states are states","random_FF_state_randH and random_FF_state_rotPDF return Hermitian PSD unit-trace matrices for every draw.","every n and draw","all draws",[f"{RS}:random_FF_state_randH",f"{RS}:random_FF_state_rotPDF"])
p("C58","random_FF_pure_state_W0/WN are unit vectors of definite parity","For every draw and N the state has norm 1 and fermion parity (-1)^N; N outside [0,n] raises ValueError.","every n, N, draw","all draws",[f"{RS}:random_FF_pure_state_W0",f"{RS}:random_FF_pure_state_WN"])
p("C59","random_FF_pure_state_CN is a unit vector","For every orbital rotation drawn and every seed vector with non-zero vacuum component, the result has norm 1 and is an occupation eigenstate of the rotated modes.","every n and draw","all draws",[f"{RS}:random_FF_pure_state_CN"])
p("C60","get_orthogonal_vectors completes v to an orthonormal basis","For every non-zero vector of dimension >= 2 and every QR factorisation, the result is unitary with first column v/|v|; zero vectors give the identity.","every dimension, vector, QR output","all vectors",[f"{RS}:get_orthogonal_vectors"])
p("C61","build_unitary_path joins w to v through unit vectors","path(0)=w/|w|, path(1)=v/|v|, |path(t)|=1 for every real t.","every pair of non-zero vectors, dimension >= 2, all t","continuum of t and vectors",[f"{RS}:build_unitary_path"])
p("C62","build_linear_path joins w to v through unit vectors","path(0)=w/|w|, path(1)=v/|v| and |path(s)|=1 for every s at which the interpolant is non-zero; claimed for all s.","every pair of non-zero vectors, all s","refuted at the midpoint of antipodal vectors",[f"{RS}:build_linear_path"])
p("C63","seeded calls are reproducible","Calling a random generator with an explicit seed returns a value depending on the arguments only, not on the earlier history of the global generator.","every call history, every seed, every pseudo-random generator","refuted for generate_random_planar_graph(seed=0) since 0 is treated as no seed",[f"{LB}:random_FF_rotation",f"{LB}:random_FF_state",f"{RS}:random_qubit_pure_state",f"{GR}:generate_random_planar_graph"])
p("C64","print_custom restores the global print precision","After print_custom returns or propagates an exception, numpy's global print precision is what it was before the call.","every object, every failure point","all failure points",[f"{UT}:_print",f"{UT}:print_custom"])
here=os.path.dirname(os.path.abspath(__file__))
extra=os.path.join(here,"extraprops.py")
if os.path.exists(extra): exec(open(extra).read())
with open(os.path.join(here,"..","properties.jsonl"),"w") as f:
    for q in P: f.write(json.dumps(q)+"\n")
print(len(P))
