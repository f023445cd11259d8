from setp import setp
setp(id="C60",title="Direct assembly: the stored matrices are the direct product, and Direct and FMM modes agree within the C59 bound",
statement="In Direct mode the assembled Neumann/Dirichlet matrices applied to any vector give exactly the quadrature sum over all cells at each owned row; every write falls inside the sparsity pattern; the entries do not depend on which process owns other rows. With the same quadrature rules the Direct and FMM products differ by at most the C59 bound; the rules are the same only if the quadrature type is Gauss (FMM ignores the 'Quadrature type' entry: finding) and, in 3D, never on singular cells (Direct uses QSplit/QDuffy, FMM uses QTelles: finding), in which case the difference is exactly the difference of the two singular rules plus the far-field error. The singular index of a cell is its first dof coinciding with the row node.",
quantifier="every mesh, mapping data, density, row, process ownership, quadrature order and type",
why_tests_cant="equality of two assembly algorithms over all meshes and ownerships",
anchors=["source/bem_problem.cc: assemble_system (752-1245)","source/bem_fma.cc: direct_integrals"])
setp(id="C61",title="Nodal normals, surface gradients and gradients are L2 projections, independent of the partition and local to separated parts",
statement="compute_normals, compute_surface_gradients and compute_gradients produce (when the linear solve is exact) the finite element field that satisfies the weak form against every admissible field: it is the best approximation in the discrete L2 norm, unique, reproduces every field the element holds, does not depend on how cells are divided among processes, and on a part of the surface that shares no unconstrained dof with the rest depends only on the data of that part. Hence the gradient of a potential with constant gradient is recovered exactly on every geometry, and flat separated parts get exact normals. The field projected by compute_gradients has normal component dphi_dn and tangential part the surface gradient of phi.",
quantifier="every mesh, hanging-node constraints, quadrature with positive weights, partition, potential and normal derivative",
why_tests_cant="universally quantified over meshes, partitions and data; tests look at one geometry with a tolerance",
anchors=["source/bem_problem.cc: compute_normals (2914-3017), compute_surface_gradients (2425-2569), compute_gradients (2261-2422)"])
