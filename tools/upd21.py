from setp import setp
setp(id="C77", title="Work of a fast product",
 statement="If the smallest boxes of the tree are larger than the absolute neighbour tolerance (1e-3) and no quadrature point is farther than the side of the smallest box from the nodes of its cell, then one fast matrix-vector product goes through at most 297 pairs of blocks per block of the tree: at most 189 multipole-to-local conversions into any block, 27 evaluations of the expansion of any block, 27 larger blocks integrated directly for any block and 54 near-field pairs per block on average, no pair twice; near neighbours are exactly the blocks of the same cut whose closed boxes touch. With at most 2n/(2m+1) subdivided blocks per level (n nodes, m the maximal number of nodes in a leaf) the work is linear in the number of nodes for a given number of levels. Outside these hypotheses it is not (refuted): on a mesh smaller than the tolerance every leaf is paired with every leaf, and the leaves that share one long cell are all paired with each other, so the near field is quadratic.",
 quantifier="all meshes, numbers of levels and leaf sizes, double nodes, histories of the element map, roundings within the stated bound",
 why_tests_cant="timings on a few meshes do not bound the work on all of them; the bound needs a packing argument over all octrees and holds only under hypotheses no test varies",
 anchors=["source/bem_fma.cc:BEMFMA::generate_octree_blocking","source/bem_fma.cc:BEMFMA::multipole_matr_vect_products","source/bem_fma.cc:BEMFMA::direct_integrals","source/octree_block.cc:OctreeBlock"])
