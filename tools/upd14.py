from setp import setp
setp(id="C68",title="Every interleaving of the parallel FMM loops gives the sequential, accurate product",
 statement="Whatever the number of threads, the interleaving of their memory accesses, the number and stale contents of the per-thread copy buffers, the order in which items are taken and copied, and the values returned by reads that overlap writes, the matrix-vector product of the fast multipole mode ends with exactly the value of the sequential loops run over some ordering of the work items; with exact expansion arithmetic that value is unique, and with the program's truncated expansions it is within the truncation bound of the direct product and the same for every execution and every partition of the nodes among processes. Near-field matrix entries are the sum of all their contributions in every execution.",
 quantifier="every mesh and octree, density, ownership set, thread schedule, number of copy buffers and initial memory",
 why_tests_cant="the schedules are uncountable in practice; a lost update or a stale buffer shows up in one interleaving out of astronomically many",
 anchors=["source/bem_fma.cc: direct_integrals","source/bem_fma.cc: multipole_integrals","source/bem_fma.cc: generate_multipole_expansions","source/bem_fma.cc: multipole_matr_vect_products"])
setp(id="C69",title="The parallel loops terminate, and race only on a static table",
 statement="No parallel loop can deadlock (from every reachable state it can be completed, provided there is at least one copy buffer) or run for ever. In no reachable state of the product, sparsity or preconditioner loops do two tasks access the same shared datum with one of them writing, except the static multipole-to-local table, which every assignment of a local expansion writes back to itself: that race occurs for every mesh (so the loops are not free of data races in the sense of the language) and is harmless only as long as its words are written atomically.",
 quantifier="every worker/copier pair, item list, number of buffers, reachable state; every mesh and ownership set",
 why_tests_cant="absence of deadlock and of races must hold in every reachable interleaving; a race detector sees only the interleavings that happen",
 anchors=["source/bem_fma.cc: parallel_for and WorkStream::run calls","source/local_expansion.cc: LocalExpansion::operator="])
setp(id="C70",title="Sparsity pattern and FMM preconditioner do not depend on the schedule",
 statement="Every execution of the sparsity loops inserts exactly the pairs of the sequential loops, and these contain the diagonal of every owned dof of a cell; every execution of the preconditioner loops leaves in each owned row exactly the values of the sequential loops (C17), leaves other rows untouched, and its non-zero entries lie in the final sparsity pattern, which has for each owned row exactly the diagonal and constraint entries (constrained rows) or the entries of the initial pattern (free rows).",
 quantifier="every mesh, ownership set, constraint set, boundary-type vector, schedule and number of copy buffers (with stale contents)",
 why_tests_cant="schedules and stale buffer contents cannot be enumerated",
 anchors=["source/bem_fma.cc: direct_integrals (sparsity)","source/bem_fma.cc: FMA_preconditioner"])
