from setp import setp
setp(id="C93", title="NaN in the fast product",
 statement="In double precision (without limits on the exponent) single quadrature points decide which rows of the fast product are numbers. A point spoils its childless block if a shape function that is not zero there has a nonzero coefficient in the density and the point is at the computed centre of the block or, for the double layer, its normal is zero or the computed cosine of its polar angle about that centre is 1 or -1. Whatever the mesh, the density, the distribution and the order of the loops: the multipole expansion of a block is finite at the end exactly when no point in the block spoils its leaf; the local expansion that an owned node evaluates is finite exactly when no point that the node accounts for by a conversion spoils its leaf (the blocks converted having different computed centres); and the row of a node that accounts for no spoiling point by an expansion, and is not at a centre of an expansion it evaluates, does not depend on any NaN, although other rows may. If no point spoils and no centres coincide, every expansion is finite. Finding: with nodes at both ends of a bar, a double-layer point straight below the centre of its block makes the local expansions of the nodes at the other end NaN, although the exact kernel is finite there; the rows of the nodes near the point, and the single layer, are not affected.",
 quantifier="all meshes, octrees, densities, orders 1 to 10, orders of the loops, ownership, any cosine, sine, arc tangent and power with the listed signs",
 why_tests_cant="a point must be within 4e-9 rad of the vertical line through the centre of its block, a block that depends on all nodes; every mesh and depth",
 anchors=["source/bem_fma.cc: multipole_integrals, generate_multipole_expansions, multipole_matr_vect_products","source/multipole_expansion.cc: AddNormDer, Add","source/local_expansion.cc: Add, Evaluate"])
