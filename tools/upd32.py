from setp import setp
setp(id="C89", title="A Direct run in floating point returns what its computed system says, up to rounding",
statement="In 3D Direct mode with some Dirichlet node and no overflow or underflow, alpha, the operator applied to any vector and the right hand side are computed with an error of at most about (37 + points per rule + cells per node + unknowns) roundings of the sum of the absolute sizes of the terms of the row; so if both sides of a row agree, as the program computes them, up to e, the returned potential and flux satisfy the integral equation up to e plus that rounding error. The same holds for every row of the constrained system, and if all rows agree up to eps the returned values differ from those of an exact run on any processes by at most the condition of the problem times (1 + largest sum of weights) times (eps + rounding). On a constrained row the rounding error is relative to the row of the matrix, which is added and subtracted (dst += src - dst), not to the constraint: refuted that constraints are kept to the precision of their unknowns (a row of 2^60 absorbs an unknown 1 completely).",
quantifier="all meshes, rules and points apart from the nodes, boundary data, candidate solutions, column orders, partitions, and all arithmetics with relative error u (binary64: 2^-53)",
why_tests_cant="a test compares some digits on a few meshes; a bound for every mesh and every order of summation needs a proof, and absorbed constraints only show at extreme scales",
anchors=["source/bem_problem.cc: BEMProblem::compute_alpha, vmult, compute_rhs, solve_system","include/constrained_matrix.h: ConstrainedOperator::vmult, distribute_rhs","include/laplace_kernel.h: kernels"])
s=open('/verif/DESIGN.md').read()
L=s.split('\n')
i=max(k for k,l in enumerate(L) if l.startswith('| C88 |'))
L.insert(i+1,"| C89 | ModelFloatSolve: alpha, vmult, compute_rhs, ConstrainedOperator of a run, every operation rounded, on the matrices of ModelFloat | spec: SpecFloatSolve (sizes of rows, rounding budget); forward error analysis over C80 (products of approximations, sums), then C75 turns the residual of the computed system into a distance to the exact run; absorption shown with Flocq's 53-digit rounding |")
i=max(k for k,l in enumerate(L) if l.startswith('| ModelHistory |'))
L.insert(i+1,"| ModelFloatSolve | bem_problem.cc 1556-1690 (Direct branches, some Dirichlet node) and constrained_matrix.h 93-146 with rounded operations |")
s='\n'.join(L)
i=s.index(' C88 a cycle depends on'); j=s.index('\n',i)
s=s[:j]+' C89 a constrained row is computed as dst += src - dst and loses constraints on unknowns below 2^-53 of the row of the matrix;'+s[j:]
open('/verif/DESIGN.md','w').write(s)
