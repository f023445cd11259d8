{"id": "C01", "title": "Expansion coefficients are a faithful triangular store", "statement": "For a multipole or local expansion built with order p, SetCoeff(n,m,v) followed by GetCoeff(n,m) returns v, leaves every other coefficient (n',m') unchanged, and every access with 0<=m<=n<=p stays inside the allocated buffer; every buffer cell is reached by exactly one pair.", "quantifier": "every order p, every pair of index pairs 0<=m<=n<=p, every stored content", "why_tests_cant": "the claim is about all p and all pairs of indices at once (aliasing between two index pairs would only show for particular combinations)", "anchors": ["include/multipole_expansion.h: GetCoeff/SetCoeff/AddToCoeff", "include/local_expansion.h: GetCoeff/SetCoeff/AddToCoeff", "source/multipole_expansion.cc: constructor"]}
{"id": "C02", "title": "Multipole-to-local coefficient table is a bijection", "statement": "LocalExpansionCoeff(p): set(n,m,nn,mm,v) then get(n,m,nn,mm) returns v and changes no other entry, for 0<=m<=n<=p, 0<=nn<=p, -nn<=mm<=nn, although mm is passed through an unsigned 32-bit parameter; the index is always inside the allocation and the entries fill the allocation exactly.", "quantifier": "every p whose table size fits in 32 bits, every valid index quadruple, negative mm included", "why_tests_cant": "aliasing of two of the (p+1)^3(p+2)/2 entries, or an out-of-range index for one negative mm, needs an exhaustive pair check for every p", "anchors": ["source/local_expansion_coeff.cc: get, set, getNNOffset, getMOffset, getNOffset, getNumberOfElements"]}
{"id": "C03", "title": "What copying the multipole-to-local table preserves", "statement": "A LocalExpansionCoeff copy-constructed from another returns the same value as the original exactly for the entries whose 8 bytes lie in the first N bytes of the table (N = number of entries), and indeterminate values for all others, because the copy passes a count of elements as a count of bytes; so for every order at least the last entry is lost (a user would expect all entries to be preserved: refuted).", "quantifier": "every order p and every table content", "why_tests_cant": "a copy that drops the tail of the table is invisible to a test that reads the first entries", "anchors": ["source/local_expansion_coeff.cc: LocalExpansionCoeff(const LocalExpansionCoeff&)"]}
{"id": "C04", "title": "Expansions have value semantics", "statement": "For any program made of constructions, copies, assignments, coefficient writes and destructions of MultipoleExpansion or LocalExpansion objects, without self-assignment and without copying from a default-constructed expansion, every object has at each moment exactly the order, center, zero flag and coefficients it would have under value semantics, no buffer is freed twice or used after being freed, and MultipoleExpansion leaks nothing (LocalExpansion leaks one buffer per assignment over an object that owned one). The two excluded operations break it: self-assignment leaves every coefficient uninitialised, and a default-constructed source is undefined behaviour.", "quantifier": "every program made of constructions, copies, assignments and coefficient writes, every order", "why_tests_cant": "aliasing and use-after-free depend on the whole history of operations on the heap", "anchors": ["source/multipole_expansion.cc: copy constructor, operator=, destructor", "source/local_expansion.cc: copy constructor, operator=, destructor"]}
{"id": "C05", "title": "The zero flag is sound", "statement": "Whenever a multipole or local expansion obtained from the sized constructor by any history of Add(strength,point), AddNormDer, scaled Add, translation and conversion reports is_zero, all its coefficients are zero and Evaluate returns 0 at every point; adding a zero expansion, a zero strength or a zero scaling never changes anything; and after expanding regular sources the flag is set exactly when every strength is zero. Exception (finding): LocalExpansion::Add(real,imag) leaves the flag set when the squared sum is at most 1e-20 although the coefficients are not zero, and for p>=1 it writes outside the coefficient array.", "quantifier": "every history of operations starting from freshly constructed expansions, every operand itself built that way", "why_tests_cant": "it is an invariant over all operation histories", "anchors": ["source/multipole_expansion.cc: Add, AddNormDer, Evaluate", "source/local_expansion.cc: Add, Evaluate"]}
{"id": "C06", "title": "Accumulation of sources is linear and order independent", "statement": "A list of accumulating calls on an expansion gives the same order, center, flag and coefficients in any order (and is undefined in one order iff in all); the coefficients are the initial ones plus what each call alone leaves in an empty expansion; each call is linear in its strength or solution value; Evaluate is linear in the coefficients, so Evaluate of two batches together is the sum of the Evaluates. A nonzero charge at the center, p>20, or a nonzero operand of smaller order is undefined behaviour.", "quantifier": "every list of calls, every permutation of it, every strength, solution value and evaluation point (exact arithmetic)", "why_tests_cant": "order independence quantifies over all permutations of all histories", "anchors": ["source/multipole_expansion.cc: Add(3 overloads), AddNormDer, Evaluate", "source/local_expansion.cc: Add, Evaluate"]}
{"id": "C07", "title": "Multipole-to-multipole translation is exact", "statement": "Translating the expansion of any list of charges and dipoles about c1 into an expansion about c2 adds exactly the coefficients that direct expansion of the same sources about c2 gives, for every order p<=20 and every pair of centers farther apart than 1e-7, when no charge is at a center and no dipole on the vertical line through a center. Finding: at distance at most 1e-7 the coefficients are copied, which is inexact unless the centers are equal.", "quantifier": "every finite list of charges and dipoles, every pair of centers, every order p<=20, every target expansion", "why_tests_cant": "the identity is an addition theorem over real coordinates; tests sample points", "anchors": ["source/multipole_expansion.cc: Add(const MultipoleExpansion&), Add(strength,point), AddNormDer", "include/multipole_expansion.h: A_n_m_Matrix"]}
{"id": "C08", "title": "Local-to-local translation is exact", "statement": "Translating any local expansion into another one of the same order about another center adds, to the value at every point other than the two centers, exactly the value of the original there, for every order p<=10 and centers farther apart than 1e-7 (at smaller distance the coefficients are copied). For p>10 the translation reads outside its table.", "quantifier": "every local expansion with arbitrary complex coefficients and a sound flag, every target, every pair of centers, every evaluation point, every p<=10", "why_tests_cant": "identity over real coordinates and arbitrary coefficients", "anchors": ["source/local_expansion.cc: Add(const LocalExpansion&), Evaluate", "include/local_expansion.h: lExp_to_lExp_Coeff_Build"]}
{"id": "C09", "title": "Dipole sources are the directional derivative of charges", "statement": "AddNormDer(strength,point,normal) adds to every coefficient exactly strength times the derivative, at the point and in the direction of the normalised normal, of what Add(1,point) leaves, for every point not on the vertical line through the center. Finding: on that line (where the derivative exists) and for a zero normal the code divides by zero.", "quantifier": "every order p<=20, every center, point, nonzero normal and strength", "why_tests_cant": "derivative identity over the reals plus a singular set of measure zero that random tests never hit", "anchors": ["source/multipole_expansion.cc: AddNormDer, Add(strength,point)"]}
{"id": "C10", "title": "The FMM is memory safe exactly for truncation orders up to 10", "statement": "Every table access made by local expansions (M2L, L2L) and by multipole expansions (Legendre table, A_n_m) is inside its table if and only if the truncation order is at most 10, although the parameter file accepts any integer; multipole expansions alone are safe exactly up to 20.", "quantifier": "every integer truncation order, every index reached by the loops", "why_tests_cant": "out-of-bounds access may go unnoticed at run time and depends on the order chosen", "anchors": ["source/bem_fma.cc: declare_parameters/parse_parameters (trunc_order)", "source/local_expansion.cc: Add(const MultipoleExpansion&), Add(const LocalExpansion&), static tables built with 10", "source/multipole_expansion.cc: A_n_m_Matrix(20)", "source/ass_leg_function.cc: constructor (21 rows)"]}
{"id": "C11", "title": "Tabulated associated Legendre functions are correct", "statement": "For every n<=20, m<=n and every x in [-1,1], GetAssLegFunSph(n,m,x) is defined (no division by zero, no root of a negative number) and is the normalised associated Legendre function (-1)^m sqrt((n-m)!/(n+m)!) (1-x^2)^(m/2) d^m/dx^m P_n(x) (Rodrigues' formula); AssLegFunSph fills y[n-m] with these for n=m..p. For n>20 or m>n the accessors read their tables out of bounds.", "quantifier": "all 231 functions and every real x in [-1,1]; all n, m for the out of bounds part", "why_tests_cant": "14000 lines of generated straight-line code; sampling x cannot prove an identity of polynomials and roots for each of the 231 functions", "anchors": ["source/ass_leg_function.cc: P_n_m, leg_pointers, GetAssLegFunSph, AssLegFunSph"]}
{"id": "C12", "title": "Tabulated derivatives are the derivatives of the tabulated functions", "statement": "For every n<=20, m<=n and every x in (-1,1), GetAssLegFunSphDeriv(n,m,x) is the derivative at x of GetAssLegFunSph(n,m,.). At x=+-1 it divides by zero exactly for m=1; for every other m it is defined on [-1,1] and continuous there.", "quantifier": "all 231 derivative functions and every real x in (-1,1)", "why_tests_cant": "as for the values; plus the derivative is a limit statement", "anchors": ["source/ass_leg_function.cc: P_n_m_Deriv, leg_der_pointers, GetAssLegFunSphDeriv, AssLegFunSphDeriv"]}
{"id": "C13", "title": "The Laplace kernels are the fundamental solution and its gradient", "statement": "For R<>0, in two and three dimensions, single_layer and every kernels overload return the free-space fundamental solution (-ln|R|/(2 pi), 1/(4 pi |R|)); double_layer and the two-output overload return its gradient, as does the three-output overload in 2D; in 3D the three-output overload returns the gradient with the opposite sign (finding: a user would expect the overloads to agree).", "quantifier": "every nonzero R in dimension 2 and 3, every component", "why_tests_cant": "identity over the reals; a sign difference between overloads only shows where both are used", "anchors": ["include/laplace_kernel.h: single_layer, double_layer, kernels (both overloads)"]}
{"id": "C14", "title": "The hypersingular kernel is the Jacobian of the vector kernel", "statement": "For R<>0 the three-output overload's H is the Jacobian of the D returned with it, symmetric and trace free, in 2D and 3D. LaplaceKernel::hypersingular returns the same in 2D; in 3D it is the same off the diagonal and at (2,2), but at (0,0) only when R1=R2=0 and at (1,1) only when R2=0, because its inner loop stops instead of skipping the diagonal (finding).", "quantifier": "every nonzero R in dimension 2 and 3, every pair of components", "why_tests_cant": "identity over the reals for all nine components", "anchors": ["include/laplace_kernel.h: kernels(R,H,D,d), hypersingular"]}
{"id": "C15", "title": "Solving the constrained system solves the right equations", "statement": "If x solves (constrained operator) x = distribute_rhs(b), then every constrained dof satisfies x_i = sum_j c_ij x_j + inhomogeneity_i exactly and every unconstrained row satisfies (M x)_i = b_i; conversely any such x solves the constrained system.", "quantifier": "every matrix, every constraint set, every right-hand side, every solution vector", "why_tests_cant": "equivalence of two systems over all matrices and constraint graphs", "anchors": ["include/constrained_matrix.h: vmult, distribute_rhs", "source/bem_problem.cc: solve_system"]}
{"id": "C16", "title": "The constrained operator does not depend on the MPI partition", "statement": "The global vector produced by the constrained operator and by distribute_rhs is the same for every partition of the dofs among processes, provided each process holds the entries its constraint rows refer to; the set of such entries computed by the solver is sufficient.", "quantifier": "every partition of dofs into owned sets, every number of processes", "why_tests_cant": "tests run a handful of process counts", "anchors": ["include/constrained_matrix.h: vmult, distribute_rhs", "source/bem_problem.cc: compute_constraints (constr_cpu_set)"]}
{"id": "C17", "title": "What the FMM preconditioner encodes on each row", "statement": "Row i of the matrix handed to the ILU preconditioner is, for an unconstrained dof, exactly the operator's row built on the near-field matrices, diagonal alpha included; for a constrained dof it encodes x_i + sum_j c_ij x_j, whereas the operator's row is x_i - sum_j c_ij x_j, so the two agree exactly on vectors with sum_j c_ij x_j = 0 (finding: wrong sign).", "quantifier": "every constraint set, every near-field matrix, every vector", "why_tests_cant": "a sign error in a preconditioner changes only convergence speed, not the result, so tests pass", "anchors": ["source/bem_fma.cc: FMA_preconditioner", "include/constrained_matrix.h: vmult"]}
{"id": "C18", "title": "Double-node constraints determine every group of coincident nodes", "statement": "For every group of mutually coincident nodes: in an all-Neumann group exactly one node stays free and all others are constrained to equal it; in a group containing a Dirichlet node every Neumann node is constrained to the imposed value of the first Dirichlet node; Dirichlet nodes stay free when the continuous-gradient option is off; no node is ever constrained to itself or to a constrained node (before hanging nodes are merged).", "quantifier": "every partition of nodes into coincidence groups and every Dirichlet marking", "why_tests_cant": "quantifies over all groupings and markings", "anchors": ["source/bem_problem.cc: compute_constraints, compute_double_nodes_set"]}
{"id": "C19", "title": "Corner condition reproduces the gradient", "statement": "At a double node shared by two Dirichlet faces with unit, non-parallel normals, the two imposed normal derivatives are the unique values for which both faces see the same normal-plane gradient components; if phi has a gradient g there, they are exactly g.n_i and g.n_j. Where more than two Dirichlet faces meet, the value imposed on the first node is the one of its pair with the last.", "quantifier": "every pair of unit non-parallel normals and tangential surface gradients, every gradient", "why_tests_cant": "algebraic identity over reals", "anchors": ["source/bem_problem.cc: compute_constraints (continuos_gradient branch)"]}
{"id": "C20", "title": "Coplanar double Dirichlet nodes are never recognised", "statement": "Whatever the normals, the branch that should tie two coincident Dirichlet nodes with parallel normals is never taken (the scalar product is divided by itself); for parallel unit normals the edge formula then divides by zero, both imposed values are non-finite and the constrained linear system has no solution (a user would expect the two unknowns to be tied: refuted).", "quantifier": "every pair of normals, every matrix and right-hand side", "why_tests_cant": "requires showing a branch unreachable for all inputs", "anchors": ["source/bem_problem.cc: compute_constraints (normal_distance)"]}
{"id": "C21", "title": "Every dof is either Dirichlet or Neumann, correctly", "statement": "After reinit, for every dof exactly one of the two indicator vectors is 1 and the other 0; a dof is Dirichlet iff it belongs to a cell of its owner's subdomain whose material id is in the Dirichlet list (on one process: iff it belongs to some Dirichlet cell); the presence flag is true iff some cell is Dirichlet, for any number of processes. The indicator of a dof on a subdomain interface depends on the partition: a dof whose Dirichlet cells all belong to other processes is treated as Neumann (finding).", "quantifier": "every mesh connectivity, material ids, Dirichlet id list, cell and dof partition", "why_tests_cant": "the multi-process part depends on which process owns which cell and dof", "anchors": ["source/bem_problem.cc: compute_dirichlet_and_neumann_dofs_vectors"]}
{"id": "C22", "title": "Double-node sets are reflexive, symmetric and complete", "statement": "Each dof is in its own double set; j is in i's set iff i is in j's set; boundary dofs closer than 1e-10 are in each other's sets and no others are; for exactly coincident points the sets are equivalence classes.", "quantifier": "every list of support points and every set of boundary dofs", "why_tests_cant": "all pairs of all point sets", "anchors": ["source/bem_problem.cc: compute_double_nodes_set", "source/computational_domain.cc: compute_double_vertex_cache"]}
{"id": "C23", "title": "Dof renumberings are mutually inverse", "statement": "The tables original_to_sub_wise and sub_wise_to_original (and the vector-valued pair) are inverse permutations, and the vector index of component d of scalar dof i read through them is injective in (d,i).", "quantifier": "every permutation returned by the renumbering and every dof", "why_tests_cant": "all permutations of all sizes", "anchors": ["source/bem_problem.cc: compute_reordering_vectors, compute_constraints, compute_normals", "source/boundary_conditions.cc: prepare_bem_vectors"]}
{"id": "C24", "title": "The BEM operator is linear", "statement": "With at least one Dirichlet dof, vmult(a x + b y) = a vmult(x) + b vmult(y), as GMRES requires. In a pure Neumann problem it is not linear: with the alpha the solver computes, vmult(-x) = -vmult(x) holds only for vectors the unshifted operator annihilates (finding: the l2 norm is subtracted).", "quantifier": "all vectors and scalars, all matrices, with and without Dirichlet dofs", "why_tests_cant": "for-all over vectors; the pure Neumann case violates it and still converges in tests", "anchors": ["source/bem_problem.cc: vmult"]}
{"id": "C25", "title": "Solving the linear system solves the boundary integral equation", "statement": "If the unconstrained system vmult(sol)=rhs holds exactly, then after solve the vectors phi and dphi_dn satisfy N phi + alpha*phi = D dphi_dn at every row, imposed potential values at Dirichlet dofs and imposed fluxes at Neumann dofs are untouched; and conversely. compute_rhs overwrites the vector it is given in Direct mode only: in FMM mode the old contents are subtracted from the result (finding), so it must be cleared first, as solve_system does.", "quantifier": "every pair of BEM matrices, alpha, Dirichlet marking, imposed data, incoming vector and solution vector", "why_tests_cant": "equivalence over all matrices and data", "anchors": ["source/bem_problem.cc: vmult, compute_rhs, solve_system"]}
{"id": "C26", "title": "Constants are solutions", "statement": "With alpha computed by the solver, the row sums of N + diag(alpha) vanish, so a constant potential with zero flux satisfies the discrete equation exactly at every row, for every mesh.", "quantifier": "every Neumann matrix", "why_tests_cant": "for-all over matrices", "anchors": ["source/bem_problem.cc: compute_alpha, vmult"]}
{"id": "C27", "title": "When cached work data is stale", "statement": "For every history of solves the vector of ones used for alpha has the content and size a fresh computation would give, but the MPI layout of the call that last changed the size; the singular quadratures are those of the element and order of the very first call for the whole life of the process, whatever is requested later (finding).", "quantifier": "every sequence of reinit/solve calls with changing sizes, partitions, quadrature orders", "why_tests_cant": "staleness depends on the history of calls in one process", "anchors": ["source/bem_problem.cc: compute_alpha, get_singular_quadrature, reinit (mapping)"]}
{"id": "C28", "title": "Boundary data vectors match the boundary conditions", "statement": "After preparing the BEM vectors, at every owned dof touched only by Dirichlet cells phi and the rhs hold the potential at its support point; touched only by Neumann cells the flux and rhs hold wind.n; touched by neither list they hold 0; dofs of other processes are not written. For a dof touched by cells of different kinds the last cell in the loop decides the rhs, while phi keeps the potential.", "quantifier": "every mesh, material ids, id lists, potential, wind and normals", "why_tests_cant": "all meshes and cell orders", "anchors": ["source/boundary_conditions.cc: prepare_bem_vectors"]}
{"id": "C29", "title": "Pure Neumann solutions are anchored", "statement": "When no Dirichlet condition is present the returned potential differs from the solver's potential by one constant on all processes and equals the exact potential at the first dof owned by process 0.", "quantifier": "every solution vector, partition and potential", "why_tests_cant": "all partitions", "anchors": ["source/boundary_conditions.cc: solve_problem, vector_shift"]}
{"id": "C30", "title": "The octree loses no point and duplicates none", "statement": "After the octree is generated, for every level the nodes (and the quadrature points) of the blocks at that level and of the childless blocks above it are exactly all nodes (all quadrature points), each once; a block's points are exactly the disjoint union of its children's.", "quantifier": "every finite set of node and quadrature positions, every number of levels and block capacity, whatever the rounding of coordinate arithmetic", "why_tests_cant": "a lost or doubled point needs a particular geometry", "anchors": ["source/bem_fma.cc: generate_octree_blocking"]}
{"id": "C31", "title": "The octree is a well-formed tree stored level by level", "statement": "Blocks are numbered so that each level is a contiguous range startLevel..endLevel, every block except the root has a parent on the previous level that lists it exactly once as a child, a block has at most eight children, and block data (level, delta, corner) follow from the parent's.", "quantifier": "every input point set, number of levels and block capacity, whatever the rounding of coordinate arithmetic", "why_tests_cant": "structural invariant over all generated trees", "anchors": ["source/bem_fma.cc: generate_octree_blocking", "source/octree_block.cc: AddChild"]}
{"id": "C32", "title": "Childless blocks partition the points, and blocks split exactly when too full", "statement": "Every node and every quadrature point lies in exactly one block of the childless list; a block is in that list iff it has no children; the root is always split, a block of the last level never, and any other block is split iff the sum over its nodes of 1/(size of the node's double set) is at least max_num_nodes_per_block + 1/2.", "quantifier": "every input", "why_tests_cant": "for all geometries", "anchors": ["source/bem_fma.cc: generate_octree_blocking (childlessList, parentList)"]}
{"id": "C33", "title": "Points lie in their block's box", "statement": "In exact arithmetic every node of every block lies in the closed box [pMin, pMin+delta]^3 of that block, the root box contains all nodes; the same holds for quadrature points if the root box (built from the nodes alone) contains them; the boxes of the blocks of one level together with the childless blocks above have disjoint interiors, and delta halves at each level. With coordinates rounded with error at most e per operation (e small against 1/1000/levels and against the geometry) the lower sides still hold exactly and the upper sides up to level*e, and boxes overlap by at most 2*levels*e.", "quantifier": "every point set; every rounding of coordinate arithmetic with bounded error (e = 0: exact)", "why_tests_cant": "for all geometries", "anchors": ["source/bem_fma.cc: generate_octree_blocking"]}
{"id": "C34", "title": "When block storage is large enough", "statement": "The number of blocks created is at most 9+(N-1)*min(nodes+quadrature points, 8*floor(2*nodes/(2*capacity+1))), so the preallocated number of slots (levels*cells*points per cell) suffices whenever it is at least that bound; it does not always suffice: there are inputs for which the blocks written exceed the slots (out-of-bounds write; a user would expect it never to happen: refuted).", "quantifier": "every mesh, quadrature and octree parameters", "why_tests_cant": "overflow needs special node/quadrature placement", "anchors": ["source/bem_fma.cc: generate_octree_blocking (maxNumBlocks)"]}
{"id": "C35", "title": "Quadrature-point-to-block map is correct", "statement": "For every quadrature point and every level l, the map gives the block at level l that contains the point, or its childless ancestor when the branch stopped earlier.", "quantifier": "every point, every level", "why_tests_cant": "for all geometries", "anchors": ["source/bem_fma.cc: generate_octree_blocking (quad_point_to_block)"]}
{"id": "C36", "title": "What the node-to-block map contains", "statement": "The dof_to_block list of a node contains only blocks that contain the node; a block with children appears once per child (the root once more), a childless block appears (number of levels - its level) times, so a childless block of the last level never appears (a user would expect the block of each level exactly once: refuted for every node).", "quantifier": "every node", "why_tests_cant": "for all geometries", "anchors": ["source/bem_fma.cc: generate_octree_blocking (dof_to_block)"]}
{"id": "C37", "title": "Near-field and far-field lists cover every interaction exactly once", "statement": "For every node and every quadrature point, exactly one of the following accounts for their interaction: direct integration in the node's childless block, direct integration over a bigger childless near block, one multipole-to-local conversion at one ancestor of the node's block, or one multipole evaluation at the node.", "quantifier": "every mesh, octree depth, capacity and pair (node, quadrature point), whatever the rounding of coordinate arithmetic", "why_tests_cant": "missing or double counting of one pair among N^2 is below the noise of any accuracy test", "anchors": ["source/bem_fma.cc: generate_octree_blocking (intList, nonIntList), direct_integrals, multipole_matr_vect_products"]}
{"id": "C38", "title": "Singular cells are integrated directly", "statement": "For every node, every quadrature point of every cell that contains the node or one of its coincident nodes is in the direct interaction set of the node's block, so the singular quadrature replaces the whole cell and never mixes with a multipole contribution.", "quantifier": "every node and cell", "why_tests_cant": "for all meshes", "anchors": ["source/bem_fma.cc: generate_octree_blocking (intList), direct_integrals"]}
{"id": "C39", "title": "Far-field pairs are well separated", "statement": "Any two blocks that exchange a multipole-to-local conversion are on the same level and their boxes are separated along some axis by at least one block side; any block whose multipole is evaluated at the nodes of a block is on a deeper level and separated from that block by at least its own side; hence the series used converge with ratio at most sqrt(3)/2 and sqrt(3)/3; no entry of a non-interaction list touches its block. With rounded coordinates the separations lose at most 2*levels*e: the code's absolute tolerance 1/1000 absorbs every rounding error in the neighbour tests.", "quantifier": "every pair of blocks related by the non-interaction lists; every rounding of coordinate arithmetic with bounded error", "why_tests_cant": "convergence of the expansion depends on it for every geometry", "anchors": ["source/bem_fma.cc: generate_octree_blocking (near neighbours, nonIntList), multipole_matr_vect_products"]}
{"id": "C40", "title": "The FMM product equals the direct product up to expansion error", "statement": "The FMM matrix-vector product at an owned node is exactly the sum over all quadrature points of the density times the kernel value produced by the one way that accounts for the pair: nothing is omitted and nothing counted twice, for every schedule. If every such kernel value is exact the product equals the direct product; if each is within eps, the product is within eps times the l1 norm of the densities.", "quantifier": "every density vector, mesh and octree", "why_tests_cant": "global identity over all trees", "anchors": ["source/bem_fma.cc: generate_multipole_expansions, multipole_matr_vect_products, direct_integrals, multipole_integrals"]}
{"id": "C41", "title": "The sparsity pattern covers every matrix write", "statement": "Every (row, column) written by direct integration is present in the sparsity pattern built beforehand, every entry of the pattern is written, and only owned rows are written, for every order of the work items.", "quantifier": "every mesh and octree", "why_tests_cant": "a missing entry shows up only for a particular mesh", "anchors": ["source/bem_fma.cc: direct_integrals"]}
{"id": "C42", "title": "Results do not depend on the thread schedule", "statement": "The near-field matrices, the multipole expansions and the FMM product are the same for every order in which WorkStream runs the blocks of each phase (exact arithmetic).", "quantifier": "every permutation of the work items", "why_tests_cant": "all schedules", "anchors": ["source/bem_fma.cc: direct_integrals, multipole_integrals, generate_multipole_expansions, multipole_matr_vect_products"]}
{"id": "C43", "title": "When the CAD projection cache is transparent", "statement": "CachedNURBS pull_back returns the underlying projection of the first point of the history whose key hashes alike; the key of two points is equal exactly when all three coordinates have the same sign and round to the same six decimals (the three printed numbers never run together ambiguously); so it is transparent for all histories iff points with equal hashes have equal projections, and points closer than the sixth decimal get each other's projection (a user would expect the projection of that very point: refuted). The number of projections computed is the number of distinct hashes queried.", "quantifier": "every sequence of query points, every hash and projection function", "why_tests_cant": "a collision of two nearby points' keys depends on the history", "anchors": ["source/cached_nurbs_patch_manifold.cc: pull_back, point_to_string"]}
{"id": "C44", "title": "The driver solves once per refinement level and reports the last solution", "statement": "With 0 <= n < 2^32-1 cycles run() terminates after exactly n+1 solves with local refinement (1 with global refinement); each solve is done on structures rebuilt by reinit for the current mesh; mesh k+1 is mesh k adaptively refined with the solution on mesh k and made conformal; nothing is refined after the last solve, so errors and output refer to the last solution on the last mesh. A cycle number of -1, which the parameter file accepts, never terminates with local refinement (finding).", "quantifier": "every parameter combination, mesh, solver and refinement response", "why_tests_cant": "for all cycle counts", "anchors": ["source/driver.cc: run"]}
{"id": "C45", "title": "Mesh regularisation loops stop and establish their goal", "statement": "The aspect-ratio loop cuts a cell exactly when its longer extent exceeds the ratio times the shorter, across the longer direction; it runs at most ten cycles (the curvature loop at most the configured number), stops earlier only if no cell was flagged in its last cycle, and after two or more cycles the resulting mesh then has no flagged cell and is conforming (after a single cycle it may not: refuted). The conformity loop sets a flag exactly for boundary faces whose midpoint is the middle of the two far ends at an unmatched boundary vertex, stops only when there is none, is idempotent, and writes outside its two-element vector exactly when an unmatched boundary vertex has a third incident cell with a boundary edge there; a face cut in the middle on one side of an edge only is cut on the other side by the next pass, so that the hanging vertex gets a partner; a face cut twice on one side is not, and the loop stops with both vertices unmatched (a user would expect conformity: refuted). At a corner belonging to one cell the second end is taken to be the origin; if such a corner lies at the origin, the loop goes on cutting its cell until some vertex is within 1e-7 of it (findings).", "quantifier": "every mesh and every refinement response", "why_tests_cant": "for all meshes", "anchors": ["source/computational_domain.cc: refine_and_resize 555-888, make_edges_conformal 978-1115, compute_double_vertex_cache 1117-1185"]}
{"id": "C46", "title": "When CAD surfaces and curves get distinct manifold ids", "statement": "After reading the CAD files (numbered from 1 up to the first missing one) every curve i has manifold id 11+i, and every surface i keeps id 1+i iff there are at most ten surfaces or no curve; with eleven surfaces and one curve the eleventh surface's id is taken by the curve (a user would expect no collision: refuted).", "quantifier": "every number of surfaces and curves", "why_tests_cant": "needs more than ten surface files", "anchors": ["source/computational_domain.cc: refine_and_resize, destructor"]}
{"id": "C47", "title": "The polar decomposition around a singular point tiles the reference cell", "statement": "For every singular point in the closed reference square, an edge is skipped exactly when it holds the point; every other edge yields an angular interval of length in (0,pi) along which the radius to the edge is defined, positive and ends exactly on that edge. Every other point of the square is reached by some edge, angle and radius not beyond the edge, and by only one except on rays through vertices; the intervals add up to 2pi in the interior, pi on an edge and pi/2 at a vertex.", "quantifier": "every point of the closed unit square, every edge, every angle in the interval, every point of the cell", "why_tests_cant": "boundary cases (corners, edges, branch cut of atan2) are a null set", "anchors": ["source/singular_kernel_integral.cc: evaluate_VkNj_integrals, evaluate_WkNj_integrals, evaluate_free_term_b"]}
{"id": "C48", "title": "The subtracted singular part is the right Laurent expansion", "statement": "In the hypersingular and strongly singular integrals the integrand (kernel, i.e. gradient of 1/r resp. of its normal derivative with respect to the singular point, times shape function times surface Jacobian times radius) minus F_2/rho^2 and F_1/rho stays bounded as the radius tends to zero, and F_2, F_1 are the only coefficients for which it does (F_2 is zero in the strongly singular case).", "quantifier": "every parametrisation of class C^3 with independent tangents and shape function of class C^2 (in particular all polynomial cells), every direction, every component", "why_tests_cant": "limit statement over all geometries", "anchors": ["source/singular_kernel_integral.cc: evaluate_VkNj_integrals, evaluate_WkNj_integrals"]}
{"id": "C49", "title": "Surface Jacobian derivatives are correct", "statement": "The vectors used as derivatives of the (unnormalised) normal are the partial derivatives of the cross product of the tangent vectors, and eta_Jxn / eta_g is that cross product in all three evaluations.", "quantifier": "every parametrisation with differentiable first derivatives", "why_tests_cant": "identity for all parametrisations", "anchors": ["source/singular_kernel_integral.cc: d_eta_Jxn_du, d_eta_Jxn_dv, eta_Jxn, eta_g"]}
{"id": "C50", "title": "What the band preconditioner contains", "statement": "Every entry written by assemble_preconditioner is in the pattern it built (|i-j| within half the band), each constrained row is the identity row, and each unconstrained row holds inside the band N_ij (+alpha_i on the diagonal) if dof i is Neumann and -D_ij if it is Dirichlet; this is the operator's coefficient exactly where dofs i and j have the same type, and the entry of the other matrix where they differ (finding).", "quantifier": "every size, band width >= 2, constraint set, matrices and Dirichlet marking", "why_tests_cant": "for all sizes relative to the band", "anchors": ["source/bem_problem.cc: assemble_preconditioner"]}
{"id": "C51", "title": "Octree blocks behave as records", "statement": "After any history of member calls on an OctreeBlock: the constructor arguments are returned unchanged; the node list is what was added since the last DelNodeList, in order; likewise the quadrature points of each cell; children are returned in the order added and the ninth AddChild writes outside the array; list s of near/interaction/non-interaction blocks holds, in increasing order and without duplicates, exactly the ids added since the list was last cut off by a resize, and adding to a list that does not exist throws. The copy constructor makes an equal block; CopyContent makes the target equal to the source exactly when the target holds no nodes, otherwise the node lists are concatenated (finding).", "quantifier": "every sequence of member calls", "why_tests_cant": "histories (CopyContent onto a non-empty block appends)", "anchors": ["source/octree_block.cc"]}
{"id": "C52", "title": "What accumulates when the octree is generated again", "statement": "Any number of earlier calls on the same mesh leaves the blocks, near lists, interaction and non-interaction lists of a new call unchanged, although the map dof_to_elems keeps one more copy of every entry per call; after a call on another mesh the leftover entries can add blocks to the interaction lists (a user would expect no influence: refuted), yet every node/quadrature-point pair is still accounted for exactly once.", "quantifier": "every history of calls, every mesh", "why_tests_cant": "history dependent", "anchors": ["source/bem_fma.cc: generate_octree_blocking, compute_geometry_cache"]}
{"id": "C53", "title": "What spheroid stretching does to the geometry", "statement": "When a spheroid is requested, the position vector of the first cycle has its first component multiplied by the x axis, its second component by the y axis and (in 3D) by the z axis, and its third component unchanged, for every node and every numbering (a user would expect the third component to be multiplied by the z axis: refuted). Later cycles: C83.", "quantifier": "every mesh, numbering permutation and triple of axes", "why_tests_cant": "holds for every numbering and every axes; shipped tests use few meshes", "anchors": ["source/bem_problem.cc:193-208 BEMProblem::reinit"]}
{"id": "C54", "title": "Boundary conditions to boundary integral equation, end to end", "statement": "On one process, if no dof is shared by a Dirichlet cell and a non-Dirichlet cell, then whenever the unconstrained linear system is solved exactly, the returned potential and flux satisfy the discrete boundary integral equation at every row, the potential equals the imposed one at every Dirichlet dof and the flux equals wind.n at every Neumann dof. For a dof shared by both kinds the value that enters the right-hand side as potential can be the flux (finding).", "quantifier": "every mesh connectivity, matrices, alpha, boundary data, solution vector", "why_tests_cant": "ranges over all meshes, data and solutions", "anchors": ["source/boundary_conditions.cc:217-343 prepare_bem_vectors", "source/bem_problem.cc:1651-1829 compute_rhs, solve_system", "source/bem_problem.cc:576-682"]}
{"id": "C55", "title": "Curvature refinement looks shapes up safely exactly without material id 0", "statement": "For every cell the curvature loop measures it against CAD surface (material id - 1) when that exists and against none when the id is larger; for material id 0 (deal.II's default) and ids >= 2^31 it indexes the surface vector out of bounds; so the loop is memory safe exactly on meshes where no cell has such an id.", "quantifier": "every material id, every number of surfaces, every mesh", "why_tests_cant": "undefined behaviour on particular ids need not show in a test; the claim ranges over all ids", "anchors": ["source/computational_domain.cc: refine_and_resize 725-873"]}
{"id": "C56", "title": "The analytic terms are the finite part of the singular integral", "statement": "In each direction a ball of any small enough radius eps cuts the ray at a distance (exclusion radius) tending to zero with eps, and every such distance is beta eps + gamma eps^2 + O(eps^3), and the radial integral outside that ball, after removing F_2/(beta eps) and -F_1 ln eps, converges to the integral of the regularised integrand plus the terms the code adds to I_1 and I_2 (hypersingular and strongly singular case); the free-term integrand is the limit of -2 rho^2 (R.n) R dS/|R|^5.", "quantifier": "every C^3 parametrisation with independent tangents that does not return to the singular point along the ray, every C^2 shape function, every direction and edge radius, every component", "why_tests_cant": "limits of improper integrals over all geometries", "anchors": ["source/singular_kernel_integral.cc: evaluate_VkNj_integrals (beta, gamma, I_1, I_2), evaluate_WkNj_integrals, evaluate_free_term_b"]}
{"id": "C57", "title": "Multipole expansions approximate the true potential within an explicit bound", "statement": "For truncation order p <= 20 and any history of Add(strength, point), AddNormDer, Add(expansion, factor) and Add(expansion), the value returned by MultipoleExpansion::Evaluate at a point x farther from the centre than every source differs from the exact potential (sum of q/|x-y| for charges and q (x-y).n/|x-y|^3 for dipoles along the unit normal n) by at most the sum over the sources of |q| (a/r)^(p+1)/(r-a) for charges and sqrt(2) |q| (a/r)^p (p+1-p a/r)/(r-a)^2 for dipoles, where a is the distance of the source and r the distance of x from the centre. Exact arithmetic.", "quantifier": "all orders p <= 20, all finite lists of charges and dipoles, all histories of additions, scalings and translations, all evaluation points outside", "why_tests_cant": "The error bound is a statement about an infinite series for every source configuration and every evaluation point; tests compare a few points with a tolerance and miss sign or normalisation errors in high orders.", "anchors": ["source/multipole_expansion.cc: MultipoleExpansion::Add, AddNormDer, Evaluate", "source/local_expansion.cc: LocalExpansion::Add, Evaluate", "include/local_expansion_coeff.h"]}
{"id": "C58", "title": "The far-field chain P2M, M2M, M2L, L2L, L2P approximates the true potential within an explicit bound", "statement": "For truncation order p <= 10, a LocalExpansion obtained by any history of conversions of multipole expansions and translations of local expansions evaluates, at every point x different from its centre and separated from the sources of every conversion (|x-cl| + |y-cm| < |cm-cl|), to the exact potential of all the sources up to the sum over the sources of (p+1) times the bound of C57 with a replaced by |x-cl|+|y-cm| and r by |cm-cl|. Above order 10 the conversion of a non-zero multipole is undefined (table out of range).", "quantifier": "all orders p <= 10, all histories of conversions and translations, all finite lists of sources, all separated evaluation points", "why_tests_cant": "Same as C57; in addition the M2L coefficient table has five indices and a sign convention, and a wrong entry in high order changes values by less than typical test tolerances.", "anchors": ["source/multipole_expansion.cc: MultipoleExpansion::Add, AddNormDer, Evaluate", "source/local_expansion.cc: LocalExpansion::Add, Evaluate", "include/local_expansion_coeff.h"]}
{"id": "C59", "title": "The FMM matrix-vector product is within an explicit bound of the direct product", "statement": "For truncation order p <= 10, in exact arithmetic, the value the FMM operator produces at an owned node (direct nearby blocks + multipole/local expansions of the classes as coded, for both the single-layer and the double-layer matrix) differs from the direct quadrature sum by at most far_error(p, smallest box side) times the sum of |density * weight|, where for the single layer far_error = (p+1)/(4 pi) (sqrt3/2)^(p+1)/((2-sqrt3) d) and similarly for the double layer. The operator is one fixed matrix: it does not depend on the density, on the order in which the parallel work items run, on which rows other processes own, or on undefined values.", "quantifier": "every mesh/octree input, quadrature points inside the root box and not exactly at leaf centres (leaf axes for the double layer), every density, schedule, partition, p <= 10", "why_tests_cant": "an error bound over all geometries, densities and schedules; tests compare one mesh to one tolerance", "anchors": ["source/bem_fma.cc: direct_integrals, multipole_integrals, generate_multipole_expansions, multipole_matr_vect_products", "source/multipole_expansion.cc", "source/local_expansion.cc"]}
{"id": "C60", "title": "Direct assembly: the stored matrices are the direct product, and Direct and FMM modes agree within the C59 bound", "statement": "In Direct mode the assembled Neumann/Dirichlet matrices applied to any vector give exactly the quadrature sum over all cells at each owned row; every write falls inside the sparsity pattern; the entries do not depend on which process owns other rows. With the same quadrature rules the Direct and FMM products differ by at most the C59 bound; the rules are the same only if the quadrature type is Gauss (FMM ignores the 'Quadrature type' entry: finding) and, in 3D, never on singular cells (Direct uses QSplit/QDuffy, FMM uses QTelles: finding), in which case the difference is exactly the difference of the two singular rules plus the far-field error. The singular index of a cell is its first dof coinciding with the row node.", "quantifier": "every mesh, mapping data, density, row, process ownership, quadrature order and type", "why_tests_cant": "equality of two assembly algorithms over all meshes and ownerships", "anchors": ["source/bem_problem.cc: assemble_system (752-1245)", "source/bem_fma.cc: direct_integrals"]}
{"id": "C61", "title": "Nodal normals, surface gradients and gradients are L2 projections, independent of the partition and local to separated parts", "statement": "compute_normals, compute_surface_gradients and compute_gradients produce (when the linear solve is exact) the finite element field that satisfies the weak form against every admissible field: it is the best approximation in the discrete L2 norm, unique, reproduces every field the element holds, does not depend on how cells are divided among processes, and on a part of the surface that shares no unconstrained dof with the rest depends only on the data of that part. Hence the gradient of a potential with constant gradient is recovered exactly on every geometry, and flat separated parts get exact normals. The field projected by compute_gradients has normal component dphi_dn and tangential part the surface gradient of phi.", "quantifier": "every mesh, hanging-node constraints, quadrature with positive weights, partition, potential and normal derivative", "why_tests_cant": "universally quantified over meshes, partitions and data; tests look at one geometry with a tolerance", "anchors": ["source/bem_problem.cc: compute_normals (2914-3017), compute_surface_gradients (2425-2569), compute_gradients (2261-2422)"]}
{"id": "C62", "title": "Free coefficients of the hypersingular equation (hyp_alpha, C_ij) depend only on the set of face normals at the node", "statement": "At a node whose cells' normals agree within 1e-5 the coefficients are 1/2 and I/2. At a node with several distinct normals they are sorted counterclockwise around the average normal, whatever the order of the cells (if the normals have distinct directions around the average and are not all coplanar with it), and the coefficients are alpha = 1/2 - sum of acos(n_k.n_k+1)/(4 pi) and C = alpha I - 1/(4 pi) sum over edges of [c(aa+bb)-(ab+ba)]/s: C is symmetric with trace 3 alpha; on an edge they do not depend on the order of the two faces and C is positive definite, so the later inversion succeeds; a box corner gets 1/8; coincident nodes get the same values. Findings: alpha is never above 1/2 (re-entrant edges and corners get the value of the convex one); opposite faces give an undefined C; in two dimensions C is always alpha I because of the integer division 1/2.", "quantifier": "every mesh, node, set of unit normals and visiting order of the cells", "why_tests_cant": "order independence over all permutations of faces and all geometries", "anchors": ["source/bem_problem.cc: compute_hypersingular_free_coeffs (1248-1476)"]}
{"id": "C63", "title": "Second free term b: sum over the whole double-node group, independent of the partition; accumulates over solves", "statement": "b_i at a node is the sum of the free-term integrals of all cells that hold a node coincident with it; it does not depend on how dofs are distributed over processes and is the same on coincident nodes. Finding: solve_system does not clear b_i, so after k solves without reinit it is k times the free term.", "quantifier": "every mesh, double-node sets, distribution of dofs, number of solves", "why_tests_cant": "quantifies over partitions and histories of calls", "anchors": ["source/bem_problem.cc: compute_hypersingular_free_coeffs (1516-1550), solve_system (1696-1716), reinit (411-417)"]}
{"id": "C64", "title": "Hypersingular gradients solve the node equation and differentiate the same discrete representation the assembly uses", "statement": "compute_gradients_hypersingular returns at each owned node the solution of C grad = (sum of cell integrals) - b phi, linear in (phi, dphi_dn), undefined exactly when C is singular; on cells away from the node the integrals are exactly the derivative, with respect to the node position, of the discrete representation formula sum(dphi_dn G - phi dG/dn) used by the direct assembly (kernel sign conventions consistent); cells touching the node use the singular integrals at the first coincident local node.", "quantifier": "every mesh, quadrature, potential, normal derivative, invertible C", "why_tests_cant": "identity over all geometries and data", "anchors": ["source/bem_problem.cc: compute_gradients_hypersingular (2571-2912)", "include/laplace_kernel.h: kernels (H, D, s)"]}
{"id": "C65", "title": "What a solution of the assembled system is", "statement": "When some boundary id is Dirichlet, a vector solves the constrained linear system handed to GMRES exactly when no hanging node also needs a condition for coincident nodes and the potential and flux written back satisfy: the discrete boundary integral equation (with the free coefficient that makes constants solutions) at every node that is not constrained; the potential imposed at the first coincident Dirichlet node, at every Neumann node that has one; one common potential in each group of coincident Neumann nodes; the edge fluxes at coincident Dirichlet nodes if 'Continuous gradient' is on; and the hanging-node relations between the UNKNOWNS of the nodes (flux at Dirichlet nodes, potential elsewhere). Hence the potential is single valued at coincident nodes when the imposed data are, imposed data are returned untouched, and hanging nodes are interpolated when the node and its parents carry the same kind of condition. When the kinds are mixed (a hanging node on the border between a Dirichlet and a Neumann region) the relation mixes fluxes with potentials and the returned potential is not the interpolated one. A hanging node that also needs a double-node condition makes the program throw. The distribution of the dofs over the processes does not matter.", "quantifier": "all systems with linear layer operators (Direct or FMM), all right-hand sides, coincidence classes, normals, surface gradients, hanging-node constraint sets, distributions over any number of processes", "why_tests_cant": "the equivalence ranges over all meshes, boundary conditions, constraint sets and partitions; a test sees one solution of one problem up to the solver tolerance", "anchors": ["source/bem_problem.cc:BEMProblem::solve_system", "source/bem_problem.cc:BEMProblem::compute_constraints", "include/constrained_matrix.h:ConstrainedOperator", "source/bem_problem.cc:BEMProblem::vmult", "source/bem_problem.cc:BEMProblem::compute_rhs"]}
{"id": "C66", "title": "Problems without Dirichlet boundary", "statement": "When no boundary id is Dirichlet, a vector solves the system exactly when the returned potential satisfies, at every equation node, the integral equation with one constant c >= 0 ADDED to its right-hand side, c being the Euclidean norm of (N - diag(N 1)) phi over all nodes, together with the coincident-node and hanging-node relations. Consequently the integral equation itself holds at some equation node only if (N - diag(N 1)) phi is zero at every node, i.e. the single-layer product of the imposed flux vanishes at every equation node; and (without coincident or hanging nodes) a solution exists only if r = D dphi satisfies sum r <= 0 and (sum r)^2 >= (n-1) sum r^2. There are solvable discrete Neumann problems for which the system has no solution, and systems whose solution does not satisfy the integral equation.", "quantifier": "all systems without Dirichlet nodes with linear layer operators, all imposed fluxes, coincidence classes, hanging-node constraints, distributions over processes", "why_tests_cant": "non-existence of a solution and the exact form of the perturbed equation are statements about every vector; GMRES on one example only shows a residual", "anchors": ["source/bem_problem.cc:BEMProblem::vmult", "source/bem_problem.cc:BEMProblem::solve_system", "include/bem_problem.h:have_dirichlet_bc"]}
{"id": "C67", "title": "FMM mode and Direct mode solve nearly the same equations", "statement": "With the same quadrature rules, every exact solution of the FMM-mode system satisfies the Direct-mode boundary integral equation at every equation node up to err = eps_N (sum_q |density of phi| + |phi_i| sum_q |density of 1|) + eps_D sum_q |density of the flux|, with the explicit truncation errors eps_N, eps_D of expansions of order p on boxes not smaller than the smallest side, whatever the thread schedules of the individual products, the undefined values and the distribution over processes; the conditions at coincident and hanging nodes hold exactly. If moreover residuals of size r in the Direct-mode problem force unknowns of size at most M r, the potentials and fluxes returned in the two modes differ by at most M times the largest err. This holds for whole runs from the mesh: the FMM run on any number of processes and the Direct run on any other, with any partitions, differ node by node by at most that. This holds in every refinement cycle, whatever earlier cycles left in the tables.", "quantifier": "all octree inputs (meshes, quadrature points) in general position, expansion orders up to 10, right-hand sides, constraints, distributions over processes, schedules of every product, values of undefined memory, stability constants", "why_tests_cant": "the bound covers every geometry and every interleaving of every product performed during the solve; tests compare two runs on one mesh", "anchors": ["source/bem_problem.cc:BEMProblem::solve_system", "source/bem_problem.cc:BEMProblem::vmult", "source/bem_fma.cc:BEMFMA::multipole_matr_vect_products", "source/bem_fma.cc:BEMFMA::generate_multipole_expansions"]}
{"id": "C68", "title": "Every interleaving of the parallel FMM loops gives the sequential, accurate product", "statement": "Whatever the number of threads, the interleaving of their memory accesses, the number and stale contents of the per-thread copy buffers, the order in which items are taken and copied, and the values returned by reads that overlap writes, the matrix-vector product of the fast multipole mode ends with bit for bit, in any arithmetic, the value of the sequential loops run over some ordering of the work items; with exact expansion arithmetic that value is unique, and with the program's truncated expansions it is within the truncation bound of the direct product and the same for every execution and every partition of the nodes among processes. Near-field matrix entries are the sum of all their contributions in every execution.", "quantifier": "every mesh and octree, density, ownership set, thread schedule, number of copy buffers and initial memory", "why_tests_cant": "the schedules are uncountable in practice; a lost update or a stale buffer shows up in one interleaving out of astronomically many", "anchors": ["source/bem_fma.cc: direct_integrals", "source/bem_fma.cc: multipole_integrals", "source/bem_fma.cc: generate_multipole_expansions", "source/bem_fma.cc: multipole_matr_vect_products"]}
{"id": "C69", "title": "The parallel loops terminate, and race only on a static table", "statement": "No parallel loop can deadlock (from every reachable state it can be completed, provided there is at least one copy buffer) or run for ever. In no reachable state of the product, sparsity or preconditioner loops do two tasks access the same shared datum with one of them writing, except the static multipole-to-local table, which every assignment of a local expansion writes back to itself: that race occurs for every mesh (so the loops are not free of data races in the sense of the language) and is harmless only as long as its words are written atomically.", "quantifier": "every worker/copier pair, item list, number of buffers, reachable state; every mesh and ownership set", "why_tests_cant": "absence of deadlock and of races must hold in every reachable interleaving; a race detector sees only the interleavings that happen", "anchors": ["source/bem_fma.cc: parallel_for and WorkStream::run calls", "source/local_expansion.cc: LocalExpansion::operator="]}
{"id": "C70", "title": "Sparsity pattern and FMM preconditioner do not depend on the schedule", "statement": "Every execution of the sparsity loops inserts exactly the pairs of the sequential loops, and these contain the diagonal of every owned dof of a cell; every execution of the preconditioner loops leaves in each owned row exactly the values of the sequential loops (C17), leaves other rows untouched, and its non-zero entries lie in the final sparsity pattern, which has for each owned row exactly the diagonal and constraint entries (constrained rows) or the entries of the initial pattern (free rows).", "quantifier": "every mesh, ownership set, constraint set, boundary-type vector, schedule and number of copy buffers (with stale contents)", "why_tests_cant": "schedules and stale buffer contents cannot be enumerated", "anchors": ["source/bem_fma.cc: direct_integrals (sparsity)", "source/bem_fma.cc: FMA_preconditioner"]}
{"id": "C71", "title": "Numbering and ownership of the unknowns", "statement": "After initialisation with any mesh, any partition of the cells and any number of processes, every scalar unknown and every vector unknown belongs to exactly one process (the smallest process owning a cell around it), each process owns a contiguous block of indices ordered by process, the tables between the old and the new numbering are mutually inverse bijections, the components of a node are on the process of the node, and the ghosted sets contain the owned ones. A process owns no unknown exactly when every unknown of each of its cells is shared with a cell of a lower process: then the first-owned-index lookups used for the pure Neumann fix are undefined, although the process has cells.", "quantifier": "every mesh, finite element numbering, cell partition, number of processes", "why_tests_cant": "partitions and meshes are unbounded; the process without unknowns appears only for special partitions", "anchors": ["source/bem_problem.cc: BEMProblem::reinit", "source/bem_problem.cc: compute_reordering_vectors", "source/bem_problem.cc: solve_system", "source/boundary_conditions.cc: solve_problem"]}
{"id": "C72", "title": "Printed errors are what their labels say", "statement": "The error report compares the computed potential, gradient and normal derivative at each node with the exact functions at that node's support point, whatever the renumbering; the gradient and normal derivative maxima are the largest nodal errors, the L2 norms are the quadrature norms over the surface, and all are zero when the solution is exact at the nodes and quadrature points. The line labelled as the maximum nodal error of the potential is instead the largest L2 error of a cell: it is not the nodal maximum and never exceeds the L2 norm.", "quantifier": "every numbering, partition, mesh, solution and exact function", "why_tests_cant": "the printed figures agree with the labels on no finite set of meshes; renumbering errors show up only on some partitions", "anchors": ["source/boundary_conditions.cc: BoundaryConditions::compute_errors"]}
{"id": "C73", "title": "What is reproducible bit for bit, and rounding of the near field", "statement": "In any arithmetic, in particular binary64, every execution of the parallel loops gives the same bits in every entry of the near-field matrices, and the product of the fast multipole mode depends on the schedule only through the order in which the upward pass takes the children of each block; it does not depend on the partition for the nodes a process owns. Products are therefore not reproducible bit for bit from run to run: two schedules of the same binary64 problem give 1 and 1+2^-52. In an arithmetic with unit roundoff u (2^-53 for binary64), each near-field entry, and each row of the near-field product, is within ((1+u)^k - 1) times the same sum of absolute values of the exactly computed one (plus underflow terms), with k the number of terms, at most one per level and per occurrence of the column in a cell, plus the quadrature points and the length of the row.", "quantifier": "every arithmetic (additions, products, quotients and expansion operations), mesh, octree, schedule, partition, kernel data and vector", "why_tests_cant": "schedules that change the order of siblings appear rarely, and a rounding bound must hold for every data set", "anchors": ["source/bem_fma.cc: direct_integrals", "source/bem_fma.cc: generate_multipole_expansions", "source/bem_fma.cc: multipole_matr_vect_products"]}
{"id": "C74", "title": "The MPI processes cannot deadlock, and what crosses process boundaries", "statement": "For every number of processes, mesh, partition, boundary ids, constraints, solution mode and thread schedule, and every history of public calls (reinit, solve_problem, adaptive_refinement, hypersingular gradients, compute_errors, output_results) made in the same order on all processes: if every process owns at least one node of each mesh that is solved on, all processes perform the same operations on whole distributed vectors and matrices, in the same order and with the same assembly mode; no write of a single entry triggers a hidden communication and no library assertion on mixed insert/add operations fails, so whatever the relative speed of the processes nobody waits for ever. If some process owns no node, the solve has undefined behaviour on that process (the write-back accesses the first owned node without a test) - exactly then. Contributions to entries owned by other processes reach their owner only for the mass matrices and right hand sides of the three projections, the hypersingular free terms and the hypersingular gradients; for these every contribution is delivered, once and in order, before the public call returns; all others that are delivered are the zeros added by the constrained operator. In particular, what the FMM downward pass adds to nodes of other processes is never delivered. Every process owns a node exactly when each process has a cell with a node that no cell of a lower-numbered process touches; so there must be at least as many nodes as processes, elements with a node inside each cell (degree two and higher) are safe as soon as every process has a cell, while with degree one having a cell is not enough: on a cube of six faces a partition that gives every process a cell leaves one process without node.", "quantifier": "all numbers of processes, partitions, meshes, constraints, schedules of the threads, numbers of solver iterations, interleavings of the processes and histories of public calls", "why_tests_cant": "a deadlock depends on the partition and the relative speed of processes; a run that terminates says nothing about another partition, and the undefined access only appears when a process owns no node", "anchors": ["source/bem_problem.cc: reinit, compute_normals, compute_surface_gradients, compute_gradients, assemble_system, compute_alpha, compute_hypersingular_free_coeffs, vmult, compute_rhs, compute_constraints, assemble_preconditioner, solve_system, solve", "source/bem_fma.cc: init_fma, direct_integrals, multipole_matr_vect_products, FMA_preconditioner", "source/boundary_conditions.cc: solve_problem, prepare_bem_vectors, compute_errors, output_results", "include/constrained_matrix.h: vmult, distribute_rhs", "source/driver.cc: run"]}
{"id": "C75", "title": "What the vector accepted by the linear solver satisfies", "statement": "GMRES returns a vector with some residual, not an exact solution. When some boundary id is Dirichlet, for ANY vector with a finite residual r (right hand side minus constrained operator), the potential and flux written back satisfy the problem of C65 with each condition violated by an amount read off r: the discrete boundary integral equation at an unconstrained node i fails by exactly r_i; the potential imposed at a coincident Neumann node, and the edge flux imposed at a coincident Dirichlet node, are missed by exactly r_i; two coincident Neumann nodes differ by at most |r_i|+|r_f| (exactly r_i unless the first node of the group is hanging); a hanging relation fails by at most |r_h| plus the weighted residuals of its parents; imposed data are untouched. The residual vanishes exactly for the exact solutions. If the problem is stable with constant M, the returned potential and flux are within M(1+W) max|r| of the exact ones, W the largest sum of absolute weights of a constraint. The solver tolerance bounds the PRECONDITIONED residual only: the residual itself is bounded by the tolerance times the row norms of the matrix the preconditioner inverts, and can exceed the tolerance by any factor even with a perfect preconditioner. In FMM mode the residual is that of the Direct system up to the truncation error of the two fast products (C59): the vector returned by the FMM solve is within M(1+W)(max|r|+err) of the exact solution of the Direct system, M its stability constant and err the bound of C59 on the fast product minus the Direct one. For whole runs: an FMM run and a Direct run of the same problem on any numbers of processes and partitions, stopped with residuals at most e1 and e2, return at every mesh node potentials and fluxes that differ by at most M(1+W)(e1+e2+err) whenever the exact problem has a solution.", "quantifier": "all systems with linear layer operators (Direct or FMM), right hand sides, constraint sets, partitions, all vectors the solver may return, all preconditioners and tolerances; all meshes, numbers of processes, partitions and FMM executions for whole runs", "why_tests_cant": "a test compares one solve with one reference up to some tolerance; which of the conditions absorbs the solver error, and by how much, for every system cannot be observed", "anchors": ["source/bem_problem.cc:BEMProblem::solve_system", "include/constrained_matrix.h:ConstrainedOperator", "source/bem_problem.cc:BEMProblem::compute_constraints", "source/bem_problem.cc:BEMProblem::parse_parameters (solver_control)"]}
{"id": "C76", "title": "Units and placement of the mesh", "statement": "If a mesh is rotated or reflected, displaced and given in another unit of length (factor s), with the same boundary conditions converted: every entry of the double layer matrix is unchanged (2D and 3D) and every entry of the single layer matrix is multiplied by s in 3D; the projected normals turn with the mesh and the projected gradients turn and are divided by s; a vector solves the linear system of the moved mesh exactly when it is the converted solution of the original one, so the returned potentials are the same and the fluxes are divided by s. Exceptions, each characterised exactly or refuted: in 2D the single layer entry changes by -s ln(s)/(2 pi) times the integral of the shape function; hanging nodes between nodes of different kind give unit dependent values; pairs of nodes whose distance crosses 1e-10 become or stop being double nodes. In FMM mode the tree is the same in every unit, but the interaction lists are not: a mesh with all coordinates below 4e-4 has no far field (the neighbour tolerance is the absolute length 1e-3), and expansions are only used for pairs at least 2.2*max|coordinate|/2^levels apart, so a mesh far from the origin has none either; in both cases the FMM product equals the direct product exactly.", "quantifier": "all meshes, orthogonal matrices, displacements, factors s>0, quadrature rules, boundary conditions, partitions; for the FMM all inputs of the tree and all roundings (tree) or exact arithmetic (products)", "why_tests_cant": "a test runs the shipped meshes in the shipped units; invariance is a statement about pairs of runs on all meshes, and the scale at which the fast method silently turns into the quadratic one is never reached", "anchors": ["source/bem_problem.cc:BEMProblem::assemble_system", "source/bem_problem.cc:BEMProblem::compute_double_nodes_set", "source/bem_problem.cc:BEMProblem::compute_normals", "source/bem_problem.cc:BEMProblem::compute_gradients", "source/bem_problem.cc:BEMProblem::solve_system", "source/bem_fma.cc:BEMFMA::generate_octree_blocking", "source/bem_fma.cc:BEMFMA::compute_m2l_flags", "include/laplace_kernel.h:LaplaceKernel::kernels"]}
{"id": "C77", "title": "Work of a fast product", "statement": "If the smallest boxes of the tree are larger than the absolute neighbour tolerance (1e-3) and no quadrature point is farther than the side of the smallest box from the nodes of its cell, then one fast matrix-vector product goes through at most 297 pairs of blocks per block of the tree: at most 189 multipole-to-local conversions into any block, 27 evaluations of the expansion of any block, 27 larger blocks integrated directly for any block and 54 near-field pairs per block on average, no pair twice; near neighbours are exactly the blocks of the same cut whose closed boxes touch. With at most 2n/(2m+1) subdivided blocks per level (n nodes, m the maximal number of nodes in a leaf) the work is linear in the number of nodes for a given number of levels. Outside these hypotheses it is not (refuted): on a mesh smaller than the tolerance every leaf is paired with every leaf, and the leaves that share one long cell are all paired with each other, so the near field is quadratic.", "quantifier": "all meshes, numbers of levels and leaf sizes, double nodes, histories of the element map, roundings within the stated bound", "why_tests_cant": "timings on a few meshes do not bound the work on all of them; the bound needs a packing argument over all octrees and holds only under hypotheses no test varies", "anchors": ["source/bem_fma.cc:BEMFMA::generate_octree_blocking", "source/bem_fma.cc:BEMFMA::multipole_matr_vect_products", "source/bem_fma.cc:BEMFMA::direct_integrals", "source/octree_block.cc:OctreeBlock"]}
{"id": "C78", "title": "Which cells the curvature loop refines and along which normal they are projected", "statement": "During curvature refinement a cell with a CAD surface is refined exactly if its diameter exceeds ten tolerances and fewer than 'cells per circle' cells of its size fit on the circle of the larger principal curvature found at its projected centre (curvature never taken below the tolerance); a cell without a CAD surface is treated as one on a surface of curvature equal to the tolerance, so it may be refined (the comment 'never refined' is refuted). If the loop ends before its cycle limit every cell of the final mesh meets the criterion. More cells per circle, larger cells or larger curvatures never remove a flag. The centre is projected along a unit vector; for a planar convex cell it is the normal of its plane in the orientation of the cell's vertices, for any planar cell it is the normal of the plane on the side from which most of the four slices run counter-clockwise, and it is undefined (0/0) exactly if a slice is degenerate or the slices cancel.", "quantifier": "all cells (four vertices in space), principal curvatures, tolerances, numbers of cells per circle, meshes and refinement operators", "why_tests_cant": "tests refine a few CAD shapes; which cells are flagged and that the final mesh meets the criterion must hold for all geometries and parameters", "anchors": ["source/computational_domain.cc:ComputationalDomain::refine_and_resize (744-853)"]}
{"id": "C79", "title": "Reproducibility and rounding of the Direct method", "statement": "In any arithmetic (whatever rounding), the entries a process stores for its rows of the Direct matrices are the same bits for every distribution of the nodes over processes. In the standard model of rounded arithmetic with relative error u and underflow error e, an entry differs from the exactly added one by at most (1+u)^n - 1 times the sum of the absolute values of what was added (plus an underflow term), n = 2 + points of the largest rule + number of cells at the column's node; a product with the matrix differs by the same with n enlarged by the number of columns, in whatever order a process stores its columns. So two distributions give products that differ by rounding only - but not bit for bit (refuted: the order of the columns, which depends on the distribution, changes the product in binary64).", "quantifier": "all meshes, quadrature rules, kernel values, vectors, distributions of the nodes, column orders, arithmetics", "why_tests_cant": "agreement of two runs up to a test's tolerance says nothing about other meshes, partitions or vectors; bitwise reproducibility cannot be observed for all of them", "anchors": ["source/bem_problem.cc:BEMProblem::assemble_system", "source/bem_problem.cc:BEMProblem::vmult"]}
{"id": "C80", "title": "Accuracy of the kernels and matrices computed in floating point", "statement": "If every operation has relative error at most u (53-digit rounding without underflow or overflow: u = 2^-53), then for ANY two distinct points, however close, the 3D single layer kernel is computed with a relative error of at most ten roundings, each component of the gradient kernel with 25, and the normal derivative with 28 roundings of |R|.|n| components over 4 pi r^3, at most |n|/(4 pi r^2); the normal derivative has no relative accuracy of its own (refuted). In 2D each component of the gradient kernel has 18 roundings, and -log(r)/(2 pi) an error of ten roundings of (|log r| + 1)/(2 pi); near r = 1 it has no relative accuracy (refuted: in double precision the point (1, 2^-40) gets 0). Hence every stored entry of the Direct matrices, computed from points, normals, shape values and JxW, and every product with them in any column order, has an error of at most 30 (31) + points + cells at the node (+ columns) roundings of the quadrature sum of the kernel's sizes. n roundings are a factor of at most nu/(1-nu).", "quantifier": "all pairs of distinct points, normals, meshes, rules, vectors, column orders, and all arithmetics with relative error u", "why_tests_cant": "a test evaluates the kernels at some points; that no pair of distinct points loses accuracy, in particular nearly coincident ones, needs an error analysis", "anchors": ["include/laplace_kernel.h:LaplaceKernel::kernels", "source/bem_problem.cc:BEMProblem::assemble_system"]}
{"id": "C81", "title": "Coincident nodes: same rows, one equation per point", "statement": "Nodes at one point that are registered as double nodes of each other get identical rows in the Direct matrices and identical products, exactly and in floating point (any arithmetic), on whatever processes they live. With 'Continuos gradient across edges' on, at most one of the nodes at a point keeps its integral equation, and in a solution the equation also holds at all the other nodes of that point, so it does not matter which one carries it. With the option off, two non-hanging Dirichlet nodes at one point make the system singular: solutions, if any, are never unique, and there is none if their imposed potentials differ (and the row of the double layer applied to constants is not zero).", "quantifier": "all meshes with double nodes, kernels, quadrature rules, arithmetics, distributions over processes, boundary data and solutions", "why_tests_cant": "a test solves one mesh; singularity hides behind an iterative solver that returns something, and the equality of rows must hold for every mesh and distribution", "anchors": ["source/bem_problem.cc:BEMProblem::assemble_system", "source/bem_problem.cc:BEMProblem::compute_constraints", "source/bem_problem.cc:BEMProblem::compute_double_nodes_set"]}
{"id": "C82", "title": "The answer does not depend on the number of processes or the partition", "statement": "Solve a mixed problem with the Direct method on any number of processes with any partition of the cells: the linear systems have the same solutions node by node (matched through the renumbering tables), the same solvability and uniqueness, and the potentials and normal derivatives handed back agree at every node. This holds if nodes are equal or at least 1e-10 apart, no node belongs both to a Dirichlet and to a non-Dirichlet cell, hanging nodes are off the boundary edges of the mesh, some cell is Dirichlet, and (with continuous gradients) all pairs of Dirichlet nodes at a point impose one flux, e.g. at most two of them. More generally a renumbering and redistribution of the unknowns of such a system maps solutions to solutions, and matrix entries and products are moved, not changed (entries in any arithmetic). Reworded: without 'no node of both kinds' the kind of a node depends on the partition, and at a corner of three Dirichlet faces with inconsistent surface gradients the imposed flux depends on the numbering (both refuted by examples).", "quantifier": "all meshes, boundary data, quadrature rules, numbers of processes, partitions of the cells and solutions", "why_tests_cant": "tests run on one or two process counts and one partition of one mesh, and compare up to a tolerance", "anchors": ["source/bem_problem.cc:BEMProblem::reinit", "source/bem_problem.cc:BEMProblem::solve_system", "source/boundary_conditions.cc:BoundaryConditions::prepare_bem_vectors", "source/bem_problem.cc:BEMProblem::compute_constraints"]}
{"id": "C83", "title": "The surface the equations are solved on, refinement cycle by refinement cycle", "statement": "Over any sequence of refinement cycles: with the FE mapping, every cycle's geometry is the position vector of its mesh with hanging nodes placed on their parents; with a spheroid requested on a spherical manifold, the stretching is applied in the first cycle only, so from the second cycle on the problem is solved on the unstretched surface (a user would expect the spheroid in every cycle: refuted). A stretched position vector in the first cycle keeps hanging nodes on their parents. With the Q mapping and a spheroid the first cycle writes outside an empty vector (undefined) unless the mesh has no nodes; with the Q mapping and no spheroid every cycle is defined. The kind of mapping chosen in the first cycle is used in all later cycles, whatever the parameters then say.", "quantifier": "all dimensions, meshes, numberings, hanging-node relations, axes, mapping types and numbers of cycles", "why_tests_cant": "the loss needs more than one adaptive cycle with a spheroid; each test runs one configuration for a fixed number of cycles", "anchors": ["source/bem_problem.cc:189-222 BEMProblem::reinit", "source/driver.cc:Driver::run"]}
{"id": "C84", "title": "What the nodal fields of the result files are, on any number of processes", "statement": "After a Direct run, the file's normals are the L2 projection of the unit normal, and its phi_gradient is the L2 projection of normal*dphi_dn plus the surface gradient of phi for the phi and dphi_dn of the same file (hanging nodes tied to their parents). The field labelled phi_surf_gradient is the projection of the surface gradient of the boundary data: the potential at Dirichlet nodes but the normal derivative at the other nodes; it is the surface gradient of phi if all cells are Dirichlet cells, and a mixed problem shows that in general it is not (refuted). With positive weights and a quadrature that determines nodal values these projections are unique, and phi, dphi_dn, alpha, phi_gradient, phi_surf_gradient and normals agree at every node between runs on different numbers of processes and partitions under C82's conditions; a run with one partition gives a run with every other.", "quantifier": "all meshes, elements, boundary data, numbers of processes, partitions and solutions of the linear systems", "why_tests_cant": "reference outputs fix one mesh and process count; the wrong label only shows on mixed problems, where nobody knows the right field independently", "anchors": ["source/boundary_conditions.cc:BoundaryConditions::solve_problem", "source/boundary_conditions.cc:BoundaryConditions::compute_errors", "source/boundary_conditions.cc:BoundaryConditions::output_results", "source/bem_problem.cc:BEMProblem::compute_surface_gradients", "source/bem_problem.cc:BEMProblem::compute_gradients", "source/bem_problem.cc:BEMProblem::compute_normals"]}
{"id": "C85", "title": "FMM results do not depend on the numbering of the unknowns, the number of processes or the execution", "statement": "For the same mesh with the unknowns numbered in any other way, the octree has the same boxes with the same nodes and quadrature points, the near, interaction and non-interaction lists contain the same boxes, every (node, quadrature point) pair is accounted for in the same way, and both fast products give the same number at the same node, whatever the owned sets, task orders and undefined values. Nodes at one point get the same product. So a solve in FMM mode on any number of processes, with any partition of the cells and any execution, has the same solutions node by node and hands back the same potentials and fluxes (under C82's conditions). This holds for a first solve; on later cycles the node-to-cell map keeps entries under old numbers, and the same leftovers under two numberings make the lists treat the same pair differently (a user would expect no influence: refuted).", "quantifier": "all meshes and quadrature points in general position, renumberings, numbers of processes, partitions, schedules of every product, undefined values, expansion orders up to 10, densities", "why_tests_cant": "tests compare a handful of process counts on small meshes up to a tolerance that hides list differences", "anchors": ["source/bem_fma.cc: generate_octree_blocking", "source/bem_fma.cc: multipole_matr_vect_products", "source/bem_problem.cc: BEMProblem::reinit", "source/bem_problem.cc: BEMProblem::vmult"]}
{"id": "C86", "title": "The program uses the numbers written in the parameter file", "statement": "An entry for Dirichlet or Neumann boundary ids is accepted exactly if it is a list of decimal numerals from 0 to 2^31-1 separated by commas (blanks around numerals, leading zeros, a plus sign and a trailing comma allowed, nothing at all for the empty list); the ids used are then exactly those numbers in their order, and no text has two readings. An integer entry (cycles, refinements, octree levels, nodes per box, truncation order, quadrature orders, element orders, granularity) is accepted exactly if it is a numeral of a 32-bit number; it is used as written if it is not negative, but negative numbers are accepted too and used as 2^32 more (a user would expect them to be refused: refuted).", "quantifier": "every text of an entry", "why_tests_cant": "tests run a few parameter files; the statement is about every text, including those with unusual blanks, signs or empty fields", "anchors": ["source/computational_domain.cc: ComputationalDomain::declare_parameters, parse_parameters", "source/bem_fma.cc: BEMFMA::declare_parameters, parse_parameters", "source/bem_problem.cc: BEMProblem::declare_parameters, parse_parameters"]}
{"id": "C87", "title": "Scalar and vector elements chosen separately", "statement": "The parameter file chooses the element of the potential and the element of the vector fields (normals, gradients, geometry) independently. With n nodes of the first and m nodes of the second on the mesh: initialisation stays inside its tables on every process exactly when n <= m; then no vector unknown has two owners, the unknowns with an owner are the components of the first n nodes, so all of them are owned exactly when n = m; the index rule used for boundary data and constraints and the one used for printed errors and hypersingular gradients agree exactly when n = m. With the same element in both places this is the ownership of C71. With different elements that happen to have equally many nodes everything is in range but a node can get the normal of a cell it does not lie on (a user would expect either an error or the node's own normal: refuted).", "quantifier": "every mesh, pair of elements, dimension, cell partition, number of processes, previous content of the tables", "why_tests_cant": "tests use the same element in both places; the statement is about all combinations the parameter file accepts, on all meshes and partitions", "anchors": ["source/bem_problem.cc: createFiniteElementPointer, BEMProblem::reinit, compute_reordering_vectors, compute_constraints, compute_gradients_hypersingular", "source/boundary_conditions.cc: BoundaryConditions::prepare_bem_vectors, compute_errors"]}
{"id": "C88", "title": "What a refinement cycle computes does not depend on the cycles before it", "statement": "In a run with local refinement in Direct mode without a spheroid (and with a row distribution determined by the number of unknowns, as on one process), every cycle computes exactly what a new process started on the mesh of that cycle would compute; the run visits the same meshes and reports the same answers as a driver without memory. History shows in exactly these ways: with a spheroid the first cycle only is stretched; every later cycle computes what a new process without the spheroid would (refuted that it is stretched); a cycle with as many unknowns as an earlier one but another distribution uses the vector of ones of the old distribution (refuted); in FMM mode the node-to-cell map of a cycle also holds the entries of all earlier cycles (refuted that it does not), which can change the lists, but two FMM solves on the same mesh after any two histories return potentials and fluxes that differ by at most M(err1+err2), the truncation errors of C59 times the condition of the Direct problem.", "quantifier": "all numbers of cycles, meshes, refinement responses, parameters, answers of the cycles; for FMM all histories, executions, partitions", "why_tests_cant": "a test runs a few cycles on a few meshes; the claim is about every history of every run, and stale data often gives plausible numbers", "anchors": ["source/driver.cc: Driver::run", "source/bem_problem.cc: BEMProblem::reinit, get_singular_quadrature, compute_alpha, solve", "source/bem_fma.cc: generate_octree_blocking (dof_to_elems)"]}
{"id": "C89", "title": "A Direct run in floating point returns what its computed system says, up to rounding", "statement": "In Direct mode, 2D or 3D, with some Dirichlet node and no overflow or underflow, alpha, the operator applied to any vector and the right hand side are computed with an error of at most about (37 + points per rule + cells per node + unknowns) roundings of the sum of the absolute sizes of the terms of the row; so if both sides of a row agree, as the program computes them, up to e, the returned potential and flux satisfy the integral equation up to e plus that rounding error. The same holds for every row of the constrained system, and if all rows agree up to eps the returned values differ from those of an exact run on any processes by at most the condition of the problem times (1 + largest sum of weights) times (eps + rounding). On a constrained row the rounding error is relative to the row of the matrix, which is added and subtracted (dst += src - dst), not to the constraint: refuted that constraints are kept to the precision of their unknowns (a row of 2^60 absorbs an unknown 1 completely).", "quantifier": "all meshes, rules and points apart from the nodes, boundary data, candidate solutions, column orders, partitions, and all arithmetics with relative error u (binary64: 2^-53)", "why_tests_cant": "a test compares some digits on a few meshes; a bound for every mesh and every order of summation needs a proof, and absorbed constraints only show at extreme scales", "anchors": ["source/bem_problem.cc: BEMProblem::compute_alpha, vmult, compute_rhs, solve_system", "include/constrained_matrix.h: ConstrainedOperator::vmult, distribute_rhs", "include/laplace_kernel.h: kernels"]}
{"id": "C90", "title": "The second constrained operator is Galerkin only for lines that name earlier dofs, and adds to its destination", "statement": "ConstrainedOperator of true_constrained_matrix.h, on one process, with constraints whose lines name free dofs: vmult(dst, src) puts, in exact arithmetic, C^T A C src (C expands the constraints) into dst, except that (a) it adds to what dst held (finding: calling it twice into one vector gives twice the product) and (b) the contribution of a constrained dof to a dof of its line is lost when that dof has a larger number (finding). Hence the transpose product is the transpose of the constraint product exactly when every line names only smaller dofs, and in that case y satisfies vmult(y) = distribute_rhs(b), from a cleared destination, exactly when finalise(y) obeys the constraints with their inhomogeneities and its residual A u - b is orthogonal to every vector obeying the homogeneous constraints; a line naming a later dof can make the system's solution something else. The operator is singular as soon as one dof is constrained: its row is zero and some vector with a nonzero entry there is mapped to zero.", "quantifier": "every size, matrix, set of constraints (any order, any weights, repeated entries, any inhomogeneities), right-hand side, source and destination", "why_tests_cant": "for all constraint sets, vectors and matrices; the loss depends on the numbering of dofs, and no file of the repository uses the class", "anchors": ["include/true_constrained_matrix.h: ConstrainedOperator::constraint_vmult, constraint_tvmult, distribute_rhs, vmult, finalise"]}
{"id": "C91", "title": "Expansions in double precision: what stays finite, and the polar axis", "statement": "In double precision (53 bits, no overflow or underflow, whatever the C library returns for cosine, sine, arc tangent, powers and the real part of powers of i; powers of -1 are exact), for expansions of orders 1 to 20 (10 for local expansions): the computed cosine of the polar angle of a source, centre or evaluation point, other than the centre of the expansion, always lies in [-1, 1], so no table takes the root of a negative number. For every history of public calls (charges, dipoles, scaled sums, translations of expansions of the same order) a multipole expansion is finite exactly when no nonzero charge or dipole lies at its centre, no dipole has a zero normal and no dipole's computed polar angle is 0 or pi; a local expansion exactly when no nonzero multipole expansion about its own centre was converted into it; both can be evaluated everywhere but at the centre. A point whose angle with the vertical line through the centre is below 2^-27.5 has computed angle 0 or pi, one whose angle is at least 2^-25 never has. Finding: so a dipole within that angle makes the expansion NaN for good, although the formula is defined in exact arithmetic for every point off the line; and a charge within it adds nothing to the moment of degree and order one, whose exact size is |q| a / sqrt 2, a the distance from the line. With the rounding taken away every call and value is that of the exact expansions of C05-C09.", "quantifier": "all points, centres, strengths, normals, coefficients, orders, histories of calls, and all behaviours of the library functions", "why_tests_cant": "the loss happens for points within 4e-9 rad of an axis through a block centre, and for every order and library; finiteness must hold for every double and every history", "anchors": ["source/multipole_expansion.cc: MultipoleExpansion::Add (all overloads), AddNormDer, Evaluate", "source/local_expansion.cc: LocalExpansion::Add(LocalExpansion), Add(MultipoleExpansion), Evaluate", "include/multipole_expansion.h: A_n_m_Matrix", "include/local_expansion.h: lExp_to_lExp_Coeff_Build, mExp_to_lExp_Coeff_Build", "source/ass_leg_function.cc: AssLegFunction::GetAssLegFunSph, GetAssLegFunSphDeriv and all table members"]}
{"id": "C92", "title": "Starting the program: thread argument and exit status", "statement": "The first argument is read like C's atoi: white space, a sign and digits at its front, of a number in the range of int, set the limit on threads, modulo 2^32 if negative; the rest of it and all later arguments are ignored. Without an argument there is no limit. Findings: -1 means no limit too, and an argument without a number at its front is not rejected but asks for 0 threads. The program then makes its calls in a fixed order (library start, construction, parameters, mesh, first refinement, update, then a set-up and a solve for each cycle with an adaptive refinement and an update between them, errors, output, timers) until one throws. Exit status 0, with an empty error stream, means that all of them returned, so the results have been written, after the last solve; exit status 1 means that one threw, that its message is on the error stream and that no call behind it was made, so results are on disk only if it was the timers or the writing itself that failed. With at most 2^32-2 cycles one of the two happens.", "quantifier": "all argument vectors, all parameter values, all behaviours of the calls (return or throw, any effect)", "why_tests_cant": "every position at which a call can fail, for every number of cycles, and every argument text", "anchors": ["source/main.cc: main", "source/driver.cc: Driver::run"]}
{"id": "C93", "title": "NaN in the fast product", "statement": "In double precision (without limits on the exponent) single quadrature points decide which rows of the fast product are numbers. A point spoils its childless block if a shape function that is not zero there has a nonzero coefficient in the density and the point is at the computed centre of the block or, for the double layer, its normal is zero or the computed cosine of its polar angle about that centre is 1 or -1. Whatever the mesh, the density, the distribution and the order of the loops: the multipole expansion of a block is finite at the end exactly when no point in the block spoils its leaf; the local expansion that an owned node evaluates is finite exactly when no point that the node accounts for by a conversion spoils its leaf (the blocks converted having different computed centres); and the row of a node that accounts for no spoiling point by an expansion, and is not at a centre of an expansion it evaluates, does not depend on any NaN, although other rows may. If no point spoils and no centres coincide, every expansion is finite. Finding: with nodes at both ends of a bar, a double-layer point straight below the centre of its block makes the local expansions of the nodes at the other end NaN, although the exact kernel is finite there; the rows of the nodes near the point, and the single layer, are not affected. The centres themselves are the middles of the blocks, each coordinate right up to two roundings of the size of its terms, and without rounding the same routines give the expansions and the product of the exact program.", "quantifier": "all meshes, octrees, densities, orders 1 to 10, orders of the loops, ownership, any cosine, sine, arc tangent and power with the listed signs", "why_tests_cant": "a point must be within 4e-9 rad of the vertical line through the centre of its block, a block that depends on all nodes; every mesh and depth", "anchors": ["source/bem_fma.cc: multipole_integrals, generate_multipole_expansions, multipole_matr_vect_products", "source/multipole_expansion.cc: AddNormDer, Add", "source/local_expansion.cc: Add, Evaluate"]}
{"id": "C94", "title": "Accuracy of translations and values of expansions in rounded arithmetic", "statement": "Whatever the rounding (every operation with relative error at most u, powers of -1 exact), the calls that work on expansions are accurate up to a number of roundings that depends only on the order p: each coefficient after converting a multipole expansion into a local one, translating a local expansion or translating a multipole expansion differs from the mathematical formula by at most gam(u, (p+1)^2+8p+21) times the size of the terms (the sum of the absolute values of the products); adding a charge, a dipole, a scaled expansion, or an expansion with the centres closer than 1e-7 by 4, 8, 2 and 1 roundings; and the value of a multipole or local expansion by 6+(p+1)(p+2)/2 roundings of the size of its terms. The constants A_n^m are right up to 2n+3 roundings, the coefficients of the conversion up to 4(n+n')+14 and of the local translation up to 4n'+14, for all indices used. The difference of a point and a centre is right up to 2 roundings of the sum of the sizes, and for the computed difference the radius is right up to 4 roundings, the cosine up to 5, and the derivatives along the normal of radius, azimuth and polar angle up to 13, 11 and 14 of the size of their terms. The Legendre values, powers, sines and cosines are those the program computes. With exact arithmetic the formulas are the ones of the exact program. In double precision the factor is below 2.5e-14 for every order up to 10. After any history of calls that stays finite (charges, dipoles, scaled sums and translations for a multipole expansion; translations and conversions for a local one) every coefficient is right up to that number of roundings per call, relative to the size of all terms of the history.", "quantifier": "all roundings, all expansions, centres, points, normals, charges and dipoles, orders up to 10 (multipole translations up to 20), all coefficients", "why_tests_cant": "a bound on the error for all coefficients and positions, in every rounding; a test compares a few results with a tolerance", "anchors": ["source/multipole_expansion.cc: Add, AddNormDer, Evaluate", "source/local_expansion.cc: Add, Evaluate", "source/local_expansion_coeff.cc: get", "include/multipole_expansion.h: A_n_m"]}
{"id": "C95", "title": "Accuracy of the Legendre tables in rounded arithmetic", "statement": "Whatever the rounding (every operation and every constant with relative error at most u), each of the 231 tabulated associated Legendre functions (degree n up to 20, order m up to n) is computed, for every argument x in [-1,1], within gam(u, k_n) S_n of its exact value, with k_n at most 3n+6 roundings and a size S_n tabulated per degree (1091 for degree 10, 5.2 million for degree 20: the tables cancel); for odd orders, which contain sqrt(1-x^2), plus W_n times the error of that root, which is at most the square root of four roundings at any x and four roundings divided by sqrt(1-x^2) away from the poles. The same holds for the derivatives of every order other than 1 (which divides by the root). In double precision, for the degrees up to 10, every value is defined, the even orders are within 4e-12, all orders within 4.1e-6, and within 5e-12 where sqrt(1-x^2) is at least 1/2. The value of an expansion differs from its series with the exact Legendre functions, at the coordinates the program computes, by the roundings of C94 and the sum of these errors times the size of what multiplies them.", "quantifier": "all roundings, all degrees up to 20, all orders, all arguments in [-1,1]", "why_tests_cant": "an error bound for every argument and every entry, computed from the text of the 231 formulas; a test compares some entries at some arguments", "anchors": ["source/ass_leg_function.cc: all table functions", "include/ass_leg_function.h: GetAssLegFunSph, GetAssLegFunSphDeriv"]}
