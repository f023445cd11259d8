from setp import setp
setp(id="C91", title="Expansions in double precision: what stays finite, and the polar axis",
 statement="In double precision (53 bits, no overflow or underflow, whatever the C library returns for cosine, sine, arc tangent, powers and the real part of powers of i; powers of -1 are exact), for expansions of orders 1 to 20 (10 for local expansions): the computed cosine of the polar angle of a source, centre or evaluation point, other than the centre of the expansion, always lies in [-1, 1], so no table takes the root of a negative number. For every history of public calls (charges, dipoles, scaled sums, translations of expansions of the same order) a multipole expansion is finite exactly when no nonzero charge or dipole lies at its centre, no dipole has a zero normal and no dipole's computed polar angle is 0 or pi; a local expansion exactly when no nonzero multipole expansion about its own centre was converted into it; both can be evaluated everywhere but at the centre. A point whose angle with the vertical line through the centre is below 2^-27.5 has computed angle 0 or pi, one whose angle is at least 2^-25 never has. Finding: so a dipole within that angle makes the expansion NaN for good, although the formula is defined in exact arithmetic for every point off the line; and a charge within it adds nothing to the moment of degree and order one, whose exact size is |q| a / sqrt 2, a the distance from the line. With the rounding taken away every call and value is that of the exact expansions of C05-C09.",
 quantifier="all points, centres, strengths, normals, coefficients, orders, histories of calls, and all behaviours of the library functions",
 why_tests_cant="the loss happens for points within 4e-9 rad of an axis through a block centre, and for every order and library; finiteness must hold for every double and every history",
 anchors=["source/multipole_expansion.cc: MultipoleExpansion::Add (all overloads), AddNormDer, Evaluate","source/local_expansion.cc: LocalExpansion::Add(LocalExpansion), Add(MultipoleExpansion), Evaluate","include/multipole_expansion.h: A_n_m_Matrix","include/local_expansion.h: lExp_to_lExp_Coeff_Build, mExp_to_lExp_Coeff_Build","source/ass_leg_function.cc: AssLegFunction::GetAssLegFunSph, GetAssLegFunSphDeriv and all table members"])
