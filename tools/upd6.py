from setp import setp
setp(id="C47",title="The polar decomposition around a singular point tiles the reference cell",
 statement="For every singular point in the closed reference square, an edge is skipped exactly when it holds the point; every other edge yields an angular interval of length in (0,pi) along which the radius to the edge is defined, positive and ends exactly on that edge. Every other point of the square is reached by some edge, angle and radius not beyond the edge, and by only one except on rays through vertices; the intervals add up to 2pi in the interior, pi on an edge and pi/2 at a vertex.",
 quantifier="every point of the closed unit square, every edge, every angle in the interval, every point of the cell",
 why_tests_cant="boundary cases (corners, edges, branch cut of atan2) are a null set",
 anchors=["source/singular_kernel_integral.cc: evaluate_VkNj_integrals, evaluate_WkNj_integrals, evaluate_free_term_b"])
setp(id="C48",title="The subtracted singular part is the right Laurent expansion",
 statement="In the hypersingular and strongly singular integrals the integrand (kernel, i.e. gradient of 1/r resp. of its normal derivative with respect to the singular point, times shape function times surface Jacobian times radius) minus F_2/rho^2 and F_1/rho stays bounded as the radius tends to zero, and F_2, F_1 are the only coefficients for which it does (F_2 is zero in the strongly singular case).",
 quantifier="every parametrisation of class C^3 with independent tangents and shape function of class C^2 (in particular all polynomial cells), every direction, every component",
 why_tests_cant="limit statement over all geometries",
 anchors=["source/singular_kernel_integral.cc: evaluate_VkNj_integrals, evaluate_WkNj_integrals"])
setp(id="C49",title="Surface Jacobian derivatives are correct",
 statement="The vectors used as derivatives of the (unnormalised) normal are the partial derivatives of the cross product of the tangent vectors, and eta_Jxn / eta_g is that cross product in all three evaluations.",
 quantifier="every parametrisation with differentiable first derivatives",
 why_tests_cant="identity for all parametrisations",
 anchors=["source/singular_kernel_integral.cc: d_eta_Jxn_du, d_eta_Jxn_dv, eta_Jxn, eta_g"])
setp(id="C56",title="The analytic terms are the finite part of the singular integral",
 statement="In each direction the exclusion radius of a ball of radius eps is beta eps + gamma eps^2 + O(eps^3), and the radial integral outside that ball, after removing F_2/(beta eps) and -F_1 ln eps, converges to the integral of the regularised integrand plus the terms the code adds to I_1 and I_2 (hypersingular and strongly singular case); the free-term integrand is the limit of -2 rho^2 (R.n) R dS/|R|^5.",
 quantifier="every C^3 parametrisation with independent tangents that does not return to the singular point along the ray, every C^2 shape function, every direction and edge radius, every component",
 why_tests_cant="limits of improper integrals over all geometries",
 anchors=["source/singular_kernel_integral.cc: evaluate_VkNj_integrals (beta, gamma, I_1, I_2), evaluate_WkNj_integrals, evaluate_free_term_b"])
