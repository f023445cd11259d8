from setp import setp
setp(id="C74", title="The MPI processes cannot deadlock, and what crosses process boundaries",
 statement="For every number of processes, mesh, partition, boundary ids, constraints, solution mode and thread schedule, and every history of public calls (reinit, solve_problem, adaptive_refinement, hypersingular gradients, compute_errors, output_results) made in the same order on all processes: if every process owns at least one node of each mesh that is solved on, all processes perform the same operations on whole distributed vectors and matrices, in the same order and with the same assembly mode; no write of a single entry triggers a hidden communication and no library assertion on mixed insert/add operations fails, so whatever the relative speed of the processes nobody waits for ever. If some process owns no node, the solve has undefined behaviour on that process (the write-back accesses the first owned node without a test) - exactly then. Contributions to entries owned by other processes reach their owner only for the mass matrices and right hand sides of the three projections, the hypersingular free terms and the hypersingular gradients; all others that are delivered are the zeros added by the constrained operator. In particular, what the FMM downward pass adds to nodes of other processes is never delivered.",
 quantifier="all numbers of processes, partitions, meshes, constraints, schedules of the threads, numbers of solver iterations, interleavings of the processes and histories of public calls",
 why_tests_cant="a deadlock depends on the partition and the relative speed of processes; a run that terminates says nothing about another partition, and the undefined access only appears when a process owns no node",
 anchors=["source/bem_problem.cc: reinit, compute_normals, compute_surface_gradients, compute_gradients, assemble_system, compute_alpha, compute_hypersingular_free_coeffs, vmult, compute_rhs, compute_constraints, assemble_preconditioner, solve_system, solve","source/bem_fma.cc: init_fma, direct_integrals, multipole_matr_vect_products, FMA_preconditioner","source/boundary_conditions.cc: solve_problem, prepare_bem_vectors, compute_errors, output_results","include/constrained_matrix.h: vmult, distribute_rhs","source/driver.cc: run"])
