from setp import setp
setp(id="C71",title="Numbering and ownership of the unknowns",
 statement="After initialisation with any mesh, any partition of the cells and any number of processes, every scalar unknown and every vector unknown belongs to exactly one process (the smallest process owning a cell around it), each process owns a contiguous block of indices ordered by process, the tables between the old and the new numbering are mutually inverse bijections, the components of a node are on the process of the node, and the ghosted sets contain the owned ones. A process owns no unknown exactly when every unknown of each of its cells is shared with a cell of a lower process: then the first-owned-index lookups used for the pure Neumann fix are undefined, although the process has cells.",
 quantifier="every mesh, finite element numbering, cell partition, number of processes",
 why_tests_cant="partitions and meshes are unbounded; the process without unknowns appears only for special partitions",
 anchors=["source/bem_problem.cc: BEMProblem::reinit","source/bem_problem.cc: compute_reordering_vectors","source/bem_problem.cc: solve_system","source/boundary_conditions.cc: solve_problem"])
setp(id="C72",title="Printed errors are what their labels say",
 statement="The error report compares the computed potential, gradient and normal derivative at each node with the exact functions at that node's support point, whatever the renumbering; the gradient and normal derivative maxima are the largest nodal errors, the L2 norms are the quadrature norms over the surface, and all are zero when the solution is exact at the nodes and quadrature points. The line labelled as the maximum nodal error of the potential is instead the largest L2 error of a cell: it is not the nodal maximum and never exceeds the L2 norm.",
 quantifier="every numbering, partition, mesh, solution and exact function",
 why_tests_cant="the printed figures agree with the labels on no finite set of meshes; renumbering errors show up only on some partitions",
 anchors=["source/boundary_conditions.cc: BoundaryConditions::compute_errors"])
