from setp import setp
setp(id="C59",title="The FMM matrix-vector product is within an explicit bound of the direct product",
statement="For truncation order p <= 10, in exact arithmetic, the value the FMM operator produces at an owned node (direct nearby blocks + multipole/local expansions of the classes as coded, for both the single-layer and the double-layer matrix) differs from the direct quadrature sum by at most far_error(p, smallest box side) times the sum of |density * weight|, where for the single layer far_error = (p+1)/(4 pi) (sqrt3/2)^(p+1)/((2-sqrt3) d) and similarly for the double layer. The operator is one fixed matrix: it does not depend on the density, on the order in which the parallel work items run, on which rows other processes own, or on undefined values.",
quantifier="every mesh/octree input, quadrature points inside the root box and not exactly at leaf centres (leaf axes for the double layer), every density, schedule, partition, p <= 10",
why_tests_cant="an error bound over all geometries, densities and schedules; tests compare one mesh to one tolerance",
anchors=["source/bem_fma.cc: direct_integrals, multipole_integrals, generate_multipole_expansions, multipole_matr_vect_products","source/multipole_expansion.cc","source/local_expansion.cc"])
