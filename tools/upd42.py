from setp import setp
setp(id="C94", title="Accuracy of translations and values of expansions in rounded arithmetic",
 statement="Whatever the rounding (every operation with relative error at most u, powers of -1 exact), the calls that work on expansions are accurate up to a number of roundings that depends only on the order p: each coefficient after converting a multipole expansion into a local one, translating a local expansion or translating a multipole expansion differs from the mathematical formula by at most gam(u, (p+1)^2+8p+21) times the size of the terms (the sum of the absolute values of the products); adding a charge, a dipole, a scaled expansion, or an expansion with the centres closer than 1e-7 by 4, 8, 2 and 1 roundings; and the value of a multipole or local expansion by 6+(p+1)(p+2)/2 roundings of the size of its terms. The constants A_n^m are right up to 2n+3 roundings, the coefficients of the conversion up to 4(n+n')+14 and of the local translation up to 4n'+14, for all indices used. The difference of a point and a centre is right up to 2 roundings of the sum of the sizes, and for the computed difference the radius is right up to 4 roundings, the cosine up to 5, and the derivatives along the normal of radius, azimuth and polar angle up to 13, 11 and 14 of the size of their terms. The Legendre values, powers, sines and cosines are those the program computes. With exact arithmetic the formulas are the ones of the exact program. In double precision the factor is below 2.5e-14 for every order up to 10.",
 quantifier="all roundings, all expansions, centres, points, normals, charges and dipoles, orders up to 10 (multipole translations up to 20), all coefficients",
 why_tests_cant="a bound on the error for all coefficients and positions, in every rounding; a test compares a few results with a tolerance",
 anchors=["source/multipole_expansion.cc: Add, AddNormDer, Evaluate","source/local_expansion.cc: Add, Evaluate","source/local_expansion_coeff.cc: get","include/multipole_expansion.h: A_n_m"])
