import json
P=[]
def add(title,statement,quantifier,why,anchors):
    P.append(dict(id="C%02d"%(len(P)+1),title=title,statement=statement,quantifier=quantifier,why_tests_cant=why,anchors=anchors))
ME="source/multipole_expansion.cc"; MH="include/multipole_expansion.h"; LE="source/local_expansion.cc"; LH="include/local_expansion.h"; LC="source/local_expansion_coeff.cc"
FM="source/bem_fma.cc"; BP="source/bem_problem.cc"; CM="include/constrained_matrix.h"; BC="source/boundary_conditions.cc"; CD="source/computational_domain.cc"
LK="include/laplace_kernel.h"; SK="source/singular_kernel_integral.cc"; AL="source/ass_leg_function.cc"
# C01
add("Expansion coefficients are a faithful triangular store",
 "For a multipole or local expansion built with order p, SetCoeff(n,m,v) followed by GetCoeff(n,m) returns v, leaves every other coefficient (n',m') unchanged, and every access with 0<=m<=n<=p stays inside the allocated buffer; every buffer cell is reached by exactly one pair.",
 "every order p, every pair of index pairs 0<=m<=n<=p, every stored content",
 "the claim is about all p and all pairs of indices at once (aliasing between two index pairs would only show for particular combinations)",
 [MH+": GetCoeff/SetCoeff/AddToCoeff",LH+": GetCoeff/SetCoeff/AddToCoeff",ME+": constructor"])
# C02
add("Multipole-to-local coefficient table is a bijection",
 "LocalExpansionCoeff(p): set(n,m,nn,mm,v) then get(n,m,nn,mm) returns v and changes no other entry, for 0<=m<=n<=p, 0<=nn<=p, -nn<=mm<=nn, although mm is passed through an unsigned 32-bit parameter; the index is always inside the allocation and the entries fill the allocation exactly.",
 "every p whose table size fits in 32 bits, every valid index quadruple, negative mm included",
 "aliasing of two of the (p+1)^3(p+2)/2 entries, or an out-of-range index for one negative mm, needs an exhaustive pair check for every p",
 [LC+": get, set, getNNOffset, getMOffset, getNOffset, getNumberOfElements"])
# C03
add("Copying the multipole-to-local table preserves all entries",
 "A LocalExpansionCoeff copy-constructed from another returns the same value as the original for every valid index.",
 "every order p and every table content",
 "a copy that drops the tail of the table is invisible to a test that reads the first entries",
 [LC+": LocalExpansionCoeff(const LocalExpansionCoeff&)"])
# C04
add("Expansions have value semantics",
 "Copy construction and assignment of a MultipoleExpansion or LocalExpansion yield an object with the same order, center, zero flag and coefficients, later changes to one do not affect the other, and no buffer is freed twice or read after being freed, for any sequence of copies and assignments including self-assignment and default-constructed sources.",
 "every program made of constructions, copies, assignments and coefficient writes, every order",
 "aliasing and use-after-free depend on the whole history of operations on the heap",
 [ME+": copy constructor, operator=, destructor",LE+": copy constructor, operator=, destructor"])
# C05
add("The zero flag is sound",
 "Whenever a multipole or local expansion reports is_zero, all its coefficients are zero and Evaluate returns 0 at every point; adding a zero expansion, a zero strength or a zero scaling never changes any coefficient.",
 "every sequence of Add/AddNormDer/translation operations starting from a freshly constructed expansion",
 "it is an invariant over all operation histories",
 [ME+": Add, AddNormDer, Evaluate",LE+": Add, Evaluate"])
# C06
add("Accumulation of sources is linear and order independent",
 "The coefficients after a list of Add(strength,point), AddNormDer, scaled Add(expansion,sol) and translated Add(expansion) calls depend only on the multiset of calls and are linear in strengths and solution values, so Evaluate of the sum is the sum of Evaluates.",
 "every list of additions, every permutation of it, every strength, every evaluation point",
 "order independence quantifies over all permutations of all histories (exact arithmetic; rounding is outside the model)",
 [ME+": Add(3 overloads), AddNormDer, Evaluate",LE+": Add, Evaluate"])
# C07
add("Multipole-to-multipole translation is exact",
 "Translating an expansion of any set of point charges to another center gives exactly the coefficients that direct expansion of the same charges about the new center gives, up to the order p<=20, for every pair of centers farther apart than the 1e-7 coincidence tolerance, when no charge and no center difference is at zero distance.",
 "every finite set of charges, every pair of centers, every order p<=20",
 "the identity is an addition theorem over real coordinates; tests sample points",
 [ME+": Add(const MultipoleExpansion&), Add(strength,point)",MH+": A_n_m_Matrix"])
# C08
add("Local-to-local translation is exact",
 "Translating a local expansion to another center gives a local expansion that Evaluates to the same value as the original at every point other than the two centers, for every order p<=10.",
 "every local expansion with real m=0 coefficients, every pair of centers, every evaluation point, every p<=10",
 "identity over real coordinates and arbitrary coefficients",
 [LE+": Add(const LocalExpansion&), Evaluate",LH+": lExp_to_lExp_Coeff_Build"])
# C09
add("Dipole sources are the directional derivative of charges",
 "AddNormDer(strength,point,normal) adds to every coefficient exactly strength times the directional derivative, along the normalised normal and with respect to the point, of what Add(1,point) adds, for every point not on the vertical line through the center; on that line the code divides by zero.",
 "every order p<=20, every center, point, nonzero normal and strength",
 "derivative identity over the reals plus a singular set of measure zero that random tests never hit",
 [ME+": AddNormDer, Add(strength,point)"])
# C10
add("The truncation order accepted by the parameter file is safe",
 "Every table access made by local expansions (M2L, L2L) and by multipole expansions (Legendre table, A_n_m) is inside its table for every truncation order the user can set. (True exactly for orders <=10; the parameter accepts any integer.)",
 "every integer truncation order, every index reached by the loops",
 "out-of-bounds access may go unnoticed at run time and depends on the order chosen",
 [FM+": declare_parameters/parse_parameters (trunc_order)",LE+": Add(const MultipoleExpansion&), Add(const LocalExpansion&), static tables built with 10",ME+": A_n_m_Matrix(20)",AL+": constructor (21 rows)"])
# C11
add("Tabulated associated Legendre functions are correct",
 "For every n<=20, m<=n and every x in [-1,1], GetAssLegFunSph(n,m,x) is the normalised associated Legendre function (-1)^m sqrt((n-m)!/(n+m)!) (1-x^2)^(m/2) d^m/dx^m P_n(x), and no division by zero occurs.",
 "all 231 functions and every real x in [-1,1]",
 "14000 lines of generated straight-line code; sampling x cannot prove an identity of polynomials and roots for each of the 231 functions",
 [AL+": P_n_m, leg_pointers, GetAssLegFunSph, AssLegFunSph"])
# C12
add("Tabulated derivatives are the derivatives of the tabulated functions",
 "For every n<=20, m<=n and every x in (-1,1), GetAssLegFunSphDeriv(n,m,x) is the derivative at x of GetAssLegFunSph(n,m,.). At x=+-1 the code divides by zero for some (n,m).",
 "all 231 derivative functions and every real x in (-1,1)",
 "as for the values; plus the derivative is a limit statement",
 [AL+": P_n_m_Deriv, leg_der_pointers, GetAssLegFunSphDeriv, AssLegFunSphDeriv"])
# C13
add("Laplace kernels are consistent with each other",
 "For every nonzero R the vector kernel D returned by kernels() is the gradient of the scalar kernel d with respect to the field point with one documented sign, and all overloads (single_layer, double_layer, two- and three-output kernels) return the same d and D.",
 "every R != 0 in two and three dimensions",
 "identity over the reals; a sign difference between overloads only shows where both are used",
 [LK+": single_layer, double_layer, kernels (both overloads)"])
# C14
add("The hypersingular kernel is the derivative of the strongly singular one",
 "For every nonzero R in 3D, the H returned by kernels() is symmetric, trace free and is the Jacobian of the D it returns; LaplaceKernel::hypersingular returns the same tensor.",
 "every R != 0",
 "identity over the reals for all nine components",
 [LK+": kernels(R,H,D,d), hypersingular"])
# C15
add("Solving the constrained system solves the right equations",
 "If x solves (constrained operator) x = distribute_rhs(b), then every constrained dof satisfies x_i = sum_j c_ij x_j + inhomogeneity_i exactly and every unconstrained row satisfies (M x)_i = b_i; conversely any such x solves the constrained system.",
 "every matrix, every constraint set, every right-hand side, every solution vector",
 "equivalence of two systems over all matrices and constraint graphs",
 [CM+": vmult, distribute_rhs",BP+": solve_system"])
# C16
add("The constrained operator does not depend on the MPI partition",
 "The global vector produced by the constrained operator and by distribute_rhs is the same for every partition of the dofs among processes, provided each process holds the entries its constraint rows refer to; the set of such entries computed by the solver is sufficient.",
 "every partition of dofs into owned sets, every number of processes",
 "tests run a handful of process counts",
 [CM+": vmult, distribute_rhs",BP+": compute_constraints (constr_cpu_set)"])
# C17
add("The FMM preconditioner agrees with the operator on constrained rows",
 "Row i of the matrix handed to the ILU preconditioner encodes, for a constrained dof, the same equation as the operator's row (x_i - sum_j c_ij x_j), and for an unconstrained dof the near-field part of the operator row, diagonal alpha included.",
 "every constraint set, every near-field matrix",
 "a sign error in a preconditioner changes only convergence speed, not the result, so tests pass",
 [FM+": FMA_preconditioner",CM+": vmult"])
# C18
add("Double-node constraints determine every group of coincident nodes",
 "For every group of mutually coincident nodes: in an all-Neumann group exactly one node stays free and all others are constrained to equal it; in a group containing a Dirichlet node every Neumann node is constrained to the imposed potential of the first Dirichlet node; no node is ever constrained to itself or to a constrained node (before hanging nodes are merged).",
 "every partition of nodes into coincidence groups and every Dirichlet marking",
 "quantifies over all groupings and markings",
 [BP+": compute_constraints, compute_double_nodes_set"])
# C19
add("Corner condition reproduces the gradient",
 "At a double node shared by two Dirichlet faces with unit, non-parallel normals, the two imposed normal derivatives are the unique values for which both faces see the same normal-plane gradient components; if phi has a gradient g there, they are exactly g.n_i and g.n_j.",
 "every pair of unit non-parallel normals and tangential surface gradients, every gradient",
 "algebraic identity over reals",
 [BP+": compute_constraints (continuos_gradient branch)"])
# C20
add("Coplanar double Dirichlet nodes are recognised",
 "When the normals at two coincident Dirichlet nodes are parallel, the solver ties the two unknowns together instead of applying the edge formula (which divides by zero there).",
 "every pair of normals",
 "requires showing a branch unreachable for all inputs",
 [BP+": compute_constraints (normal_distance)"])
# C21
add("Every dof is either Dirichlet or Neumann, correctly",
 "After reinit, for every dof exactly one of the two indicator vectors is 1 and the other 0, and a dof is Dirichlet iff it belongs to some cell whose material id is in the Dirichlet list; the presence flag is true iff some cell is Dirichlet; this holds for any number of processes and any cell partition.",
 "every mesh connectivity, material ids, Dirichlet id list, cell and dof partition",
 "the multi-process part depends on which process owns which cell and dof",
 [BP+": compute_dirichlet_and_neumann_dofs_vectors"])
# C22
add("Double-node sets are reflexive, symmetric and complete",
 "Each dof is in its own double set; j is in i's set iff i is in j's set; boundary dofs closer than 1e-10 are in each other's sets and no others are; for exactly coincident points the sets are equivalence classes.",
 "every list of support points and every set of boundary dofs",
 "all pairs of all point sets",
 [BP+": compute_double_nodes_set",CD+": compute_double_vertex_cache"])
# C23
add("Dof renumberings are mutually inverse",
 "The tables original_to_sub_wise and sub_wise_to_original (and the vector-valued pair) are inverse permutations, and the vector index of component d of scalar dof i read through them is injective in (d,i).",
 "every permutation returned by the renumbering and every dof",
 "all permutations of all sizes",
 [BP+": compute_reordering_vectors, compute_constraints, compute_normals",BC+": prepare_bem_vectors"])
# C24
add("The BEM operator is linear",
 "vmult(a x + b y) = a vmult(x) + b vmult(y), as GMRES requires, for every boundary condition.",
 "all vectors and scalars, all matrices, with and without Dirichlet dofs",
 "for-all over vectors; the pure Neumann case violates it and still converges in tests",
 [BP+": vmult"])
# C25
add("Solving the linear system solves the boundary integral equation",
 "If the unconstrained system vmult(sol)=rhs holds exactly, then after solve the vectors phi and dphi_dn satisfy N phi + alpha*phi = D dphi_dn at every row, imposed potential values at Dirichlet dofs and imposed fluxes at Neumann dofs are untouched; and conversely.",
 "every pair of BEM matrices, alpha, Dirichlet marking, imposed data and solution vector",
 "equivalence over all matrices and data",
 [BP+": vmult, compute_rhs, solve_system"])
# C26
add("Constants are solutions",
 "With alpha computed by the solver, the row sums of N + diag(alpha) vanish, so a constant potential with zero flux satisfies the discrete equation exactly at every row, for every mesh.",
 "every Neumann matrix",
 "for-all over matrices",
 [BP+": compute_alpha, vmult"])
# C27
add("Cached work data is never stale",
 "Data kept in function-static storage across calls (the vector of ones used for alpha, the singular quadratures) is equal to what a fresh computation for the current mesh, partition and parameters would give, for every history of solves.",
 "every sequence of reinit/solve calls with changing sizes, partitions, quadrature orders",
 "staleness depends on the history of calls in one process",
 [BP+": compute_alpha, get_singular_quadrature, reinit (mapping)"])
# C28
add("Boundary data vectors match the boundary conditions",
 "After preparing the BEM vectors, at every owned dof touched only by Dirichlet cells phi and the rhs hold the potential at its support point; touched only by Neumann cells the flux and rhs hold wind.n; touched by neither list they hold 0; dofs of other processes are not written.",
 "every mesh, material ids, id lists, potential, wind and normals",
 "all meshes and cell orders",
 [BC+": prepare_bem_vectors"])
# C29
add("Pure Neumann solutions are anchored",
 "When no Dirichlet condition is present the returned potential differs from the solver's potential by one constant on all processes and equals the exact potential at the first dof owned by process 0.",
 "every solution vector, partition and potential",
 "all partitions",
 [BC+": solve_problem, vector_shift"])
# C30
add("The octree loses no point and duplicates none",
 "After the octree is generated, for every level the nodes (and the quadrature points) of the blocks at that level and of the childless blocks above it are exactly all nodes (all quadrature points), each once; a block's points are exactly the disjoint union of its children's.",
 "every finite set of node and quadrature positions, every number of levels and block capacity",
 "a lost or doubled point needs a particular geometry",
 [FM+": generate_octree_blocking"])
# C31
add("The octree is a well-formed tree stored level by level",
 "Blocks are numbered so that each level is a contiguous range startLevel..endLevel, every block except the root has a parent on the previous level that lists it exactly once as a child, a block has at most eight children (four in 2D), and block data (level, delta, corner) follow from the parent's.",
 "every input point set, number of levels and block capacity",
 "structural invariant over all generated trees",
 [FM+": generate_octree_blocking","source/octree_block.cc: AddChild"])
# C32
add("Childless blocks partition the domain",
 "Every node and every quadrature point lies in exactly one block of the childless list; a block is in that list iff it has no children; a non-last-level block is split iff its (weighted) node count exceeds the capacity.",
 "every input",
 "for all geometries",
 [FM+": generate_octree_blocking (childlessList, parentList)"])
# C33
add("Points lie in their block's box",
 "If all points lie in the root box then every point of every block lies in the closed box [pMin, pMin+delta]^3 of that block, boxes of distinct blocks on a level have disjoint interiors, and delta halves at each level; the root box contains all nodes.",
 "every point set (exact arithmetic)",
 "for all geometries",
 [FM+": generate_octree_blocking"])
# C34
add("Block storage is large enough",
 "The number of blocks created never exceeds the preallocated number of block slots.",
 "every mesh, quadrature and octree parameters",
 "overflow needs special node/quadrature placement",
 [FM+": generate_octree_blocking (maxNumBlocks)"])
# C35
add("Quadrature-point-to-block map is correct",
 "For every quadrature point and every level l, the map gives the block at level l that contains the point, or its childless ancestor when the branch stopped earlier.",
 "every point, every level",
 "for all geometries",
 [FM+": generate_octree_blocking (quad_point_to_block)"])
# C36
add("Node-to-block map is correct",
 "For every node the dof_to_block list contains the blocks containing the node, once each per level.",
 "every node",
 "for all geometries",
 [FM+": generate_octree_blocking (dof_to_block)"])
# C37
add("Near-field and far-field lists cover every interaction exactly once",
 "For every node and every quadrature point, exactly one of the following accounts for their interaction: direct integration in the node's childless block, direct integration over a bigger childless near block, one multipole-to-local conversion at one ancestor of the node's block, or one multipole evaluation at the node.",
 "every mesh, octree depth, capacity and pair (node, quadrature point)",
 "missing or double counting of one pair among N^2 is below the noise of any accuracy test",
 [FM+": generate_octree_blocking (intList, nonIntList), direct_integrals, multipole_matr_vect_products"])
# C38
add("Singular cells are integrated directly",
 "For every node, every quadrature point of every cell that contains the node or one of its coincident nodes is in the direct interaction set of the node's block, so the singular quadrature replaces the whole cell and never mixes with a multipole contribution.",
 "every node and cell",
 "for all meshes",
 [FM+": generate_octree_blocking (intList), direct_integrals"])
# C39
add("Far-field pairs are well separated",
 "Any two blocks that exchange a multipole-to-local conversion are on the same level and their boxes do not touch; any block whose multipole is evaluated at the nodes of a block has a box not touching that block.",
 "every pair of blocks related by the non-interaction lists",
 "convergence of the expansion depends on it for every geometry",
 [FM+": generate_octree_blocking (near neighbours, nonIntList), multipole_matr_vect_products"])
# C40
add("The FMM product equals the direct product up to expansion error",
 "If translations and conversions were exact, the FMM matrix-vector product would equal, for every node, the full sum over all quadrature points of kernel times density: nothing is omitted and nothing is counted twice.",
 "every density vector, mesh and octree",
 "global identity over all trees",
 [FM+": generate_multipole_expansions, multipole_matr_vect_products, direct_integrals, multipole_integrals"])
# C41
add("The sparsity pattern covers every matrix write",
 "Every (row, column) written by direct integration (near-field matrices and preconditioner) is present in the sparsity pattern built beforehand.",
 "every mesh and octree",
 "a missing entry shows up only for a particular mesh",
 [FM+": direct_integrals"])
# C42
add("Results do not depend on the thread schedule",
 "The near-field matrices, multipole expansions and local products are the same for every order in which WorkStream runs its copier on the blocks (exact arithmetic).",
 "every permutation of the work items",
 "all schedules",
 [FM+": direct_integrals, multipole_integrals, generate_multipole_expansions, multipole_matr_vect_products"])
# C43
add("The CAD projection cache is transparent",
 "CachedNURBS pull_back returns, for every query in every history of queries, the value the underlying projection gives for that very point.",
 "every sequence of query points",
 "a collision of two nearby points' keys depends on the history",
 ["source/cached_nurbs_patch_manifold.cc: pull_back, point_to_string"])
# C44
add("The driver solves once per refinement level and reports the last solution",
 "run() performs exactly the requested number of refinement cycles, each solve is preceded by a reinit on the current mesh, no refinement happens after the last solve, and errors and output refer to the last solve.",
 "every parameter combination and number of cycles",
 "for all cycle counts",
 ["source/driver.cc: run"])
# C45
add("Mesh regularisation loops stop and establish their goal",
 "The aspect-ratio loop runs at most ten times, and stops earlier only when no cell exceeds the ratio; the conformity loop stops only when no unmatched boundary vertex faces a boundary edge midpoint.",
 "every mesh and every refinement response",
 "for all meshes",
 [CD+": refine_and_resize, make_edges_conformal"])
# C46
add("CAD surfaces and curves get distinct manifold ids",
 "No surface projector and curve projector share a manifold id, whatever the number of CAD files found.",
 "every number of surfaces and curves",
 "needs more than ten surface files",
 [CD+": refine_and_resize, destructor"])
# C47
add("The polar decomposition around a singular point tiles the reference cell",
 "For every singular point in the closed reference square, each non-skipped edge yields an angular interval of length in (0,pi], along which the radius to the edge is positive and finite and ends exactly on that edge; the intervals of the four edges add up to 2pi in the interior, pi on an edge and pi/2 at a corner.",
 "every point of the closed unit square, every edge, every angle in the interval",
 "boundary cases (corners, edges, branch cut of atan2) are a null set",
 [SK+": evaluate_VkNj_integrals, evaluate_WkNj_integrals, evaluate_free_term_b"])
# C48
add("The subtracted singular part is the right Laurent expansion",
 "In the hypersingular and strongly singular integrals the coefficients F_2 and F_1 subtracted from the integrand are the limits that make the remainder bounded as the radius tends to zero.",
 "every parametrisation jacobian and second derivatives with non-degenerate tangent, every direction",
 "limit statement over all geometries",
 [SK+": evaluate_VkNj_integrals, evaluate_WkNj_integrals"])
# C49
add("Surface Jacobian derivatives are correct",
 "The vectors used as derivatives of the (unnormalised) normal are the partial derivatives of the cross product of the tangent vectors, and eta_Jxn is that cross product in all three evaluations.",
 "every twice differentiable parametrisation",
 "identity for all parametrisations",
 [SK+": d_eta_Jxn_du, d_eta_Jxn_dv, eta_g"])
# C50
add("The band preconditioner writes only inside its pattern and contains the diagonal",
 "Every entry written by assemble_preconditioner is in the pattern it built, each unconstrained row holds the operator's coefficients inside the band including alpha on the diagonal, and each constrained row is the identity row.",
 "every size, partition, constraint set, matrices",
 "for all sizes relative to the band",
 [BP+": assemble_preconditioner"])
# C51
add("Octree blocks behave as records",
 "Setting and getting each attribute of an OctreeBlock round-trips, CopyContent makes the target equal to the source, adding a child appends it and never exceeds eight.",
 "every sequence of operations",
 "histories (CopyContent onto a non-empty block appends)",
 ["source/octree_block.cc"])
# C52
add("Regenerating the octree does not accumulate state",
 "Calling the octree generation again for the same mesh gives the same lists as the first call.",
 "every history of calls",
 "history dependent",
 [FM+": generate_octree_blocking, compute_geometry_cache"])
with open('/verif/properties.jsonl','w') as f:
    for p in P: f.write(json.dumps(p)+'\n')
print(len(P))
