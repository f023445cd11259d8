from setp import setp
setp(id="C67",title="FMM mode and Direct mode solve nearly the same equations",
 statement="With the same quadrature rules, every exact solution of the FMM-mode system satisfies the Direct-mode boundary integral equation at every equation node up to err = eps_N (sum_q |density of phi| + |phi_i| sum_q |density of 1|) + eps_D sum_q |density of the flux|, with the explicit truncation errors eps_N, eps_D of expansions of order p on boxes not smaller than the smallest side, whatever the thread schedules of the individual products, the undefined values and the distribution over processes; the conditions at coincident and hanging nodes hold exactly. If moreover residuals of size r in the Direct-mode problem force unknowns of size at most M r, the potentials and fluxes returned in the two modes differ by at most M times the largest err.",
 quantifier="all octree inputs (meshes, quadrature points) in general position, expansion orders up to 10, right-hand sides, constraints, distributions over processes, schedules of every product, values of undefined memory, stability constants",
 why_tests_cant="the bound covers every geometry and every interleaving of every product performed during the solve; tests compare two runs on one mesh",
 anchors=["source/bem_problem.cc:BEMProblem::solve_system","source/bem_problem.cc:BEMProblem::vmult","source/bem_fma.cc:BEMFMA::multipole_matr_vect_products","source/bem_fma.cc:BEMFMA::generate_multipole_expansions"])
