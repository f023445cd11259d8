from setp import setp
setp(id="C81", title="Coincident nodes: same rows, one equation per point",
 statement="Nodes at one point that are registered as double nodes of each other get identical rows in the Direct matrices and identical products, exactly and in floating point (any arithmetic), on whatever processes they live. With 'Continuos gradient across edges' on, at most one of the nodes at a point keeps its integral equation, and in a solution the equation also holds at all the other nodes of that point, so it does not matter which one carries it. With the option off, two non-hanging Dirichlet nodes at one point make the system singular: solutions, if any, are never unique, and there is none if their imposed potentials differ (and the row of the double layer applied to constants is not zero).",
 quantifier="all meshes with double nodes, kernels, quadrature rules, arithmetics, distributions over processes, boundary data and solutions",
 why_tests_cant="a test solves one mesh; singularity hides behind an iterative solver that returns something, and the equality of rows must hold for every mesh and distribution",
 anchors=["source/bem_problem.cc:BEMProblem::assemble_system","source/bem_problem.cc:BEMProblem::compute_constraints","source/bem_problem.cc:BEMProblem::compute_double_nodes_set"])
setp(id="C82", title="The answer does not depend on the number of processes or the partition",
 statement="Solve a mixed problem with the Direct method on any number of processes with any partition of the cells: the linear systems have the same solutions node by node (matched through the renumbering tables), the same solvability and uniqueness, and the potentials and normal derivatives handed back agree at every node. This holds if nodes are equal or at least 1e-10 apart, no node belongs both to a Dirichlet and to a non-Dirichlet cell, hanging nodes are off the boundary edges of the mesh, some cell is Dirichlet, and (with continuous gradients) all pairs of Dirichlet nodes at a point impose one flux, e.g. at most two of them. More generally a renumbering and redistribution of the unknowns of such a system maps solutions to solutions, and matrix entries and products are moved, not changed (entries in any arithmetic). Reworded: without 'no node of both kinds' the kind of a node depends on the partition, and at a corner of three Dirichlet faces with inconsistent surface gradients the imposed flux depends on the numbering (both refuted by examples).",
 quantifier="all meshes, boundary data, quadrature rules, numbers of processes, partitions of the cells and solutions",
 why_tests_cant="tests run on one or two process counts and one partition of one mesh, and compare up to a tolerance",
 anchors=["source/bem_problem.cc:BEMProblem::reinit","source/bem_problem.cc:BEMProblem::solve_system","source/boundary_conditions.cc:BoundaryConditions::prepare_bem_vectors","source/bem_problem.cc:BEMProblem::compute_constraints"])
