from setp import setp
setp(id="C73",title="What is reproducible bit for bit, and rounding of the near field",
 statement="In any arithmetic, in particular binary64, every execution of the parallel loops gives the same bits in every entry of the near-field matrices, and the product of the fast multipole mode depends on the schedule only through the order in which the upward pass takes the children of each block; it does not depend on the partition for the nodes a process owns. Products are therefore not reproducible bit for bit from run to run: two schedules of the same binary64 problem give 1 and 1+2^-52. In an arithmetic with unit roundoff u (2^-53 for binary64), each near-field entry, and each row of the near-field product, is within ((1+u)^k - 1) times the same sum of absolute values of the exactly computed one (plus underflow terms), with k the number of terms, at most one per level and per occurrence of the column in a cell, plus the quadrature points and the length of the row.",
 quantifier="every arithmetic (additions, products, quotients and expansion operations), mesh, octree, schedule, partition, kernel data and vector",
 why_tests_cant="schedules that change the order of siblings appear rarely, and a rounding bound must hold for every data set",
 anchors=["source/bem_fma.cc: direct_integrals","source/bem_fma.cc: generate_multipole_expansions","source/bem_fma.cc: multipole_matr_vect_products"])
