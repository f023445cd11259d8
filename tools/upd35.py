from setp import setp
setp(id="C90", title="The second constrained operator is Galerkin only for lines that name earlier dofs, and adds to its destination",
 statement="ConstrainedOperator of true_constrained_matrix.h, on one process, with constraints whose lines name free dofs: vmult(dst, src) puts, in exact arithmetic, C^T A C src (C expands the constraints) into dst, except that (a) it adds to what dst held (finding: calling it twice into one vector gives twice the product) and (b) the contribution of a constrained dof to a dof of its line is lost when that dof has a larger number (finding). Hence the transpose product is the transpose of the constraint product exactly when every line names only smaller dofs, and in that case y satisfies vmult(y) = distribute_rhs(b), from a cleared destination, exactly when finalise(y) obeys the constraints with their inhomogeneities and its residual A u - b is orthogonal to every vector obeying the homogeneous constraints; a line naming a later dof can make the system's solution something else. The operator is singular as soon as one dof is constrained: its row is zero and some vector with a nonzero entry there is mapped to zero.",
 quantifier="every size, matrix, set of constraints (any order, any weights, repeated entries, any inhomogeneities), right-hand side, source and destination",
 why_tests_cant="for all constraint sets, vectors and matrices; the loss depends on the numbering of dofs, and no file of the repository uses the class",
 anchors=["include/true_constrained_matrix.h: ConstrainedOperator::constraint_vmult, constraint_tvmult, distribute_rhs, vmult, finalise"])
