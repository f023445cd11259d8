from setp import setp
setp(id="C53", title="What spheroid stretching does to the geometry",
 statement="When a spheroid is requested, the position vector of the first cycle has its first component multiplied by the x axis, its second component by the y axis and (in 3D) by the z axis, and its third component unchanged, for every node and every numbering (a user would expect the third component to be multiplied by the z axis: refuted). Later cycles: C83.",
 quantifier="every mesh, numbering permutation and triple of axes", why_tests_cant="holds for every numbering and every axes; shipped tests use few meshes", anchors=["source/bem_problem.cc:193-208 BEMProblem::reinit"])
setp(id="C83", title="The surface the equations are solved on, refinement cycle by refinement cycle",
 statement="Over any sequence of refinement cycles: with the FE mapping, every cycle's geometry is the position vector of its mesh with hanging nodes placed on their parents; with a spheroid requested on a spherical manifold, the stretching is applied in the first cycle only, so from the second cycle on the problem is solved on the unstretched surface (a user would expect the spheroid in every cycle: refuted). A stretched position vector in the first cycle keeps hanging nodes on their parents. With the Q mapping and a spheroid the first cycle writes outside an empty vector (undefined) unless the mesh has no nodes; with the Q mapping and no spheroid every cycle is defined. The kind of mapping chosen in the first cycle is used in all later cycles, whatever the parameters then say.",
 quantifier="all dimensions, meshes, numberings, hanging-node relations, axes, mapping types and numbers of cycles",
 why_tests_cant="the loss needs more than one adaptive cycle with a spheroid; each test runs one configuration for a fixed number of cycles",
 anchors=["source/bem_problem.cc:189-222 BEMProblem::reinit","source/driver.cc:Driver::run"])
setp(id="C84", title="What the nodal fields of the result files are, on any number of processes",
 statement="After a Direct run, the file's normals are the L2 projection of the unit normal, and its phi_gradient is the L2 projection of normal*dphi_dn plus the surface gradient of phi for the phi and dphi_dn of the same file (hanging nodes tied to their parents). The field labelled phi_surf_gradient is the projection of the surface gradient of the boundary data: the potential at Dirichlet nodes but the normal derivative at the other nodes; it is the surface gradient of phi if all cells are Dirichlet cells, and a mixed problem shows that in general it is not (refuted). With positive weights and a quadrature that determines nodal values these projections are unique, and phi, dphi_dn, alpha, phi_gradient, phi_surf_gradient and normals agree at every node between runs on different numbers of processes and partitions under C82's conditions; a run with one partition gives a run with every other.",
 quantifier="all meshes, elements, boundary data, numbers of processes, partitions and solutions of the linear systems",
 why_tests_cant="reference outputs fix one mesh and process count; the wrong label only shows on mixed problems, where nobody knows the right field independently",
 anchors=["source/boundary_conditions.cc:BoundaryConditions::solve_problem","source/boundary_conditions.cc:BoundaryConditions::compute_errors","source/boundary_conditions.cc:BoundaryConditions::output_results","source/bem_problem.cc:BEMProblem::compute_surface_gradients","source/bem_problem.cc:BEMProblem::compute_gradients","source/bem_problem.cc:BEMProblem::compute_normals"])
