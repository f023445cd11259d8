from setp import setp
setp(id="C79", title="Reproducibility and rounding of the Direct method",
 statement="In any arithmetic (whatever rounding), the entries a process stores for its rows of the Direct matrices are the same bits for every distribution of the nodes over processes. In the standard model of rounded arithmetic with relative error u and underflow error e, an entry differs from the exactly added one by at most (1+u)^n - 1 times the sum of the absolute values of what was added (plus an underflow term), n = 2 + points of the largest rule + number of cells at the column's node; a product with the matrix differs by the same with n enlarged by the number of columns, in whatever order a process stores its columns. So two distributions give products that differ by rounding only - but not bit for bit (refuted: the order of the columns, which depends on the distribution, changes the product in binary64).",
 quantifier="all meshes, quadrature rules, kernel values, vectors, distributions of the nodes, column orders, arithmetics",
 why_tests_cant="agreement of two runs up to a test's tolerance says nothing about other meshes, partitions or vectors; bitwise reproducibility cannot be observed for all of them",
 anchors=["source/bem_problem.cc:BEMProblem::assemble_system","source/bem_problem.cc:BEMProblem::vmult"])
setp(id="C80", title="Accuracy of the kernels and matrices computed in floating point",
 statement="If every operation has relative error at most u (53-digit rounding without underflow or overflow: u = 2^-53), then for ANY two distinct points, however close, the 3D single layer kernel is computed with a relative error of at most ten roundings, each component of the gradient kernel with 25, and the normal derivative with 28 roundings of |R|.|n| components over 4 pi r^3, at most |n|/(4 pi r^2); the normal derivative has no relative accuracy of its own (refuted). Hence every stored entry of the Direct matrices, computed from points, normals, shape values and JxW, and every product with them in any column order, has an error of at most 30 (31) + points + cells at the node (+ columns) roundings of the quadrature sum of the kernel's sizes. n roundings are a factor of at most nu/(1-nu).",
 quantifier="all pairs of distinct points, normals, meshes, rules, vectors, column orders, and all arithmetics with relative error u",
 why_tests_cant="a test evaluates the kernels at some points; that no pair of distinct points loses accuracy, in particular nearly coincident ones, needs an error analysis",
 anchors=["include/laplace_kernel.h:LaplaceKernel::kernels","source/bem_problem.cc:BEMProblem::assemble_system"])
