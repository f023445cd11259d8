from setp import setp
setp(id="C25",title="Solving the linear system solves the boundary integral equation",
statement="If the unconstrained system vmult(sol)=rhs holds exactly, then after solve the vectors phi and dphi_dn satisfy N phi + alpha*phi = D dphi_dn at every row, imposed potential values at Dirichlet dofs and imposed fluxes at Neumann dofs are untouched; and conversely. compute_rhs overwrites the vector it is given in Direct mode only: in FMM mode the old contents are subtracted from the result (finding), so it must be cleared first, as solve_system does.",
quantifier="every pair of BEM matrices, alpha, Dirichlet marking, imposed data, incoming vector and solution vector",why_tests_cant="equivalence over all matrices and data",anchors=["source/bem_problem.cc: vmult, compute_rhs, solve_system"])
