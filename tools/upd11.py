from setp import setp
setp(id="C62",title="Free coefficients of the hypersingular equation (hyp_alpha, C_ij) depend only on the set of face normals at the node",
statement="At a node whose cells' normals agree within 1e-5 the coefficients are 1/2 and I/2. At a node with several distinct normals they are sorted counterclockwise around the average normal, whatever the order of the cells (if the normals have distinct directions around the average and are not all coplanar with it), and the coefficients are alpha = 1/2 - sum of acos(n_k.n_k+1)/(4 pi) and C = alpha I - 1/(4 pi) sum over edges of [c(aa+bb)-(ab+ba)]/s: C is symmetric with trace 3 alpha; on an edge they do not depend on the order of the two faces and C is positive definite, so the later inversion succeeds; a box corner gets 1/8; coincident nodes get the same values. Findings: alpha is never above 1/2 (re-entrant edges and corners get the value of the convex one); opposite faces give an undefined C; in two dimensions C is always alpha I because of the integer division 1/2.",
quantifier="every mesh, node, set of unit normals and visiting order of the cells",
why_tests_cant="order independence over all permutations of faces and all geometries",
anchors=["source/bem_problem.cc: compute_hypersingular_free_coeffs (1248-1476)"])
setp(id="C63",title="Second free term b: sum over the whole double-node group, independent of the partition; accumulates over solves",
statement="b_i at a node is the sum of the free-term integrals of all cells that hold a node coincident with it; it does not depend on how dofs are distributed over processes and is the same on coincident nodes. Finding: solve_system does not clear b_i, so after k solves without reinit it is k times the free term.",
quantifier="every mesh, double-node sets, distribution of dofs, number of solves",
why_tests_cant="quantifies over partitions and histories of calls",
anchors=["source/bem_problem.cc: compute_hypersingular_free_coeffs (1516-1550), solve_system (1696-1716), reinit (411-417)"])
setp(id="C64",title="Hypersingular gradients solve the node equation and differentiate the same discrete representation the assembly uses",
statement="compute_gradients_hypersingular returns at each owned node the solution of C grad = (sum of cell integrals) - b phi, linear in (phi, dphi_dn), undefined exactly when C is singular; on cells away from the node the integrals are exactly the derivative, with respect to the node position, of the discrete representation formula sum(dphi_dn G - phi dG/dn) used by the direct assembly (kernel sign conventions consistent); cells touching the node use the singular integrals at the first coincident local node.",
quantifier="every mesh, quadrature, potential, normal derivative, invertible C",
why_tests_cant="identity over all geometries and data",
anchors=["source/bem_problem.cc: compute_gradients_hypersingular (2571-2912)","include/laplace_kernel.h: kernels (H, D, s)"])
