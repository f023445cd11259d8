from setp import setp
setp(id="C87", title="Scalar and vector elements chosen separately",
 statement="The parameter file chooses the element of the potential and the element of the vector fields (normals, gradients, geometry) independently. With n nodes of the first and m nodes of the second on the mesh: initialisation stays inside its tables on every process exactly when n <= m; then no vector unknown has two owners, the unknowns with an owner are the components of the first n nodes, so all of them are owned exactly when n = m; the index rule used for boundary data and constraints and the one used for printed errors and hypersingular gradients agree exactly when n = m. With the same element in both places this is the ownership of C71. With different elements that happen to have equally many nodes everything is in range but a node can get the normal of a cell it does not lie on (a user would expect either an error or the node's own normal: refuted).",
 quantifier="every mesh, pair of elements, dimension, cell partition, number of processes, previous content of the tables",
 why_tests_cant="tests use the same element in both places; the statement is about all combinations the parameter file accepts, on all meshes and partitions",
 anchors=["source/bem_problem.cc: createFiniteElementPointer, BEMProblem::reinit, compute_reordering_vectors, compute_constraints, compute_gradients_hypersingular","source/boundary_conditions.cc: BoundaryConditions::prepare_bem_vectors, compute_errors"])
