from setp import setp
setp(id="C85", title="FMM results do not depend on the numbering of the unknowns, the number of processes or the execution",
 statement="For the same mesh with the unknowns numbered in any other way, the octree has the same boxes with the same nodes and quadrature points, the near, interaction and non-interaction lists contain the same boxes, every (node, quadrature point) pair is accounted for in the same way, and both fast products give the same number at the same node, whatever the owned sets, task orders and undefined values. Nodes at one point get the same product. So a solve in FMM mode on any number of processes, with any partition of the cells and any execution, has the same solutions node by node and hands back the same potentials and fluxes (under C82's conditions). This holds for a first solve; on later cycles the node-to-cell map keeps entries under old numbers, and the same leftovers under two numberings make the lists treat the same pair differently (a user would expect no influence: refuted).",
 quantifier="all meshes and quadrature points in general position, renumberings, numbers of processes, partitions, schedules of every product, undefined values, expansion orders up to 10, densities",
 why_tests_cant="tests compare a handful of process counts on small meshes up to a tolerance that hides list differences",
 anchors=["source/bem_fma.cc: generate_octree_blocking","source/bem_fma.cc: multipole_matr_vect_products","source/bem_problem.cc: BEMProblem::reinit","source/bem_problem.cc: BEMProblem::vmult"])
