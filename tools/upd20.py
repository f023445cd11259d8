from setp import setp
setp(id="C76", title="Units and placement of the mesh",
 statement="If a mesh is rotated or reflected, displaced and given in another unit of length (factor s), with the same boundary conditions converted: every entry of the double layer matrix is unchanged (2D and 3D) and every entry of the single layer matrix is multiplied by s in 3D; the projected normals turn with the mesh and the projected gradients turn and are divided by s; a vector solves the linear system of the moved mesh exactly when it is the converted solution of the original one, so the returned potentials are the same and the fluxes are divided by s. Exceptions, each characterised exactly or refuted: in 2D the single layer entry changes by -s ln(s)/(2 pi) times the integral of the shape function; hanging nodes between nodes of different kind give unit dependent values; pairs of nodes whose distance crosses 1e-10 become or stop being double nodes. In FMM mode the tree is the same in every unit, but the interaction lists are not: a mesh with all coordinates below 4e-4 has no far field (the neighbour tolerance is the absolute length 1e-3), and expansions are only used for pairs at least 2.2*max|coordinate|/2^levels apart, so a mesh far from the origin has none either; in both cases the FMM product equals the direct product exactly.",
 quantifier="all meshes, orthogonal matrices, displacements, factors s>0, quadrature rules, boundary conditions, partitions; for the FMM all inputs of the tree and all roundings (tree) or exact arithmetic (products)",
 why_tests_cant="a test runs the shipped meshes in the shipped units; invariance is a statement about pairs of runs on all meshes, and the scale at which the fast method silently turns into the quadratic one is never reached",
 anchors=["source/bem_problem.cc:BEMProblem::assemble_system","source/bem_problem.cc:BEMProblem::compute_double_nodes_set","source/bem_problem.cc:BEMProblem::compute_normals","source/bem_problem.cc:BEMProblem::compute_gradients","source/bem_problem.cc:BEMProblem::solve_system","source/bem_fma.cc:BEMFMA::generate_octree_blocking","source/bem_fma.cc:BEMFMA::compute_m2l_flags","include/laplace_kernel.h:LaplaceKernel::kernels"])
