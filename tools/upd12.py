from setp import setp
setp(id="C65", title="What a solution of the assembled system is",
 statement="When some boundary id is Dirichlet, a vector solves the constrained linear system handed to GMRES exactly when no hanging node also needs a condition for coincident nodes and the potential and flux written back satisfy: the discrete boundary integral equation (with the free coefficient that makes constants solutions) at every node that is not constrained; the potential imposed at the first coincident Dirichlet node, at every Neumann node that has one; one common potential in each group of coincident Neumann nodes; the edge fluxes at coincident Dirichlet nodes if 'Continuous gradient' is on; and the hanging-node relations between the UNKNOWNS of the nodes (flux at Dirichlet nodes, potential elsewhere). Hence the potential is single valued at coincident nodes when the imposed data are, imposed data are returned untouched, and hanging nodes are interpolated when the node and its parents carry the same kind of condition. When the kinds are mixed (a hanging node on the border between a Dirichlet and a Neumann region) the relation mixes fluxes with potentials and the returned potential is not the interpolated one. A hanging node that also needs a double-node condition makes the program throw. The distribution of the dofs over the processes does not matter.",
 quantifier="all systems with linear layer operators (Direct or FMM), all right-hand sides, coincidence classes, normals, surface gradients, hanging-node constraint sets, distributions over any number of processes",
 why_tests_cant="the equivalence ranges over all meshes, boundary conditions, constraint sets and partitions; a test sees one solution of one problem up to the solver tolerance",
 anchors=["source/bem_problem.cc:BEMProblem::solve_system","source/bem_problem.cc:BEMProblem::compute_constraints","include/constrained_matrix.h:ConstrainedOperator","source/bem_problem.cc:BEMProblem::vmult","source/bem_problem.cc:BEMProblem::compute_rhs"])
setp(id="C66", title="Problems without Dirichlet boundary",
 statement="When no boundary id is Dirichlet, a vector solves the system exactly when the returned potential satisfies, at every equation node, the integral equation with one constant c >= 0 ADDED to its right-hand side, c being the Euclidean norm of (N - diag(N 1)) phi over all nodes, together with the coincident-node and hanging-node relations. Consequently the integral equation itself holds at some equation node only if (N - diag(N 1)) phi is zero at every node, i.e. the single-layer product of the imposed flux vanishes at every equation node; and (without coincident or hanging nodes) a solution exists only if r = D dphi satisfies sum r <= 0 and (sum r)^2 >= (n-1) sum r^2. There are solvable discrete Neumann problems for which the system has no solution, and systems whose solution does not satisfy the integral equation.",
 quantifier="all systems without Dirichlet nodes with linear layer operators, all imposed fluxes, coincidence classes, hanging-node constraints, distributions over processes",
 why_tests_cant="non-existence of a solution and the exact form of the perturbed equation are statements about every vector; GMRES on one example only shows a residual",
 anchors=["source/bem_problem.cc:BEMProblem::vmult","source/bem_problem.cc:BEMProblem::solve_system","include/bem_problem.h:have_dirichlet_bc"])
setp(id="C67", title="FMM mode and Direct mode solve nearly the same equations",
 statement="With the same quadrature rules, every exact solution of the FMM-mode system satisfies the Direct-mode boundary integral equation at every equation node up to eps_N (sum_q |density of phi| + |phi_i| sum_q |density of 1|) + eps_D sum_q |density of the flux|, with the explicit truncation errors eps_N, eps_D of expansions of order p on boxes not smaller than the smallest side, whatever the thread schedules of the individual products, the undefined values and the distribution over processes; the conditions at coincident and hanging nodes hold exactly.",
 quantifier="all octree inputs (meshes, quadrature points) in general position, expansion orders up to 10, right-hand sides, constraints, distributions over processes, schedules of every product, values of undefined memory",
 why_tests_cant="the bound covers every geometry and every interleaving of every product performed during the solve; tests compare two runs on one mesh",
 anchors=["source/bem_problem.cc:BEMProblem::solve_system","source/bem_problem.cc:BEMProblem::vmult","source/bem_fma.cc:BEMFMA::multipole_matr_vect_products","source/bem_fma.cc:BEMFMA::generate_multipole_expansions"])
