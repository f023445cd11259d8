from setp import setp
setp(id="C95", title="Accuracy of the Legendre tables in rounded arithmetic",
 statement="Whatever the rounding (every operation and every constant with relative error at most u), each of the 231 tabulated associated Legendre functions (degree n up to 20, order m up to n) is computed, for every argument x in [-1,1], within gam(u, k_n) S_n of its exact value, with k_n at most 3n+6 roundings and a size S_n tabulated per degree (1091 for degree 10, 5.2 million for degree 20: the tables cancel); for odd orders, which contain sqrt(1-x^2), plus W_n times the error of that root, which is at most the square root of four roundings at any x and four roundings divided by sqrt(1-x^2) away from the poles. The same holds for the derivatives of every order other than 1 (which divides by the root). In double precision, for the degrees up to 10, every value is defined, the even orders are within 4e-12, all orders within 4.1e-6, and within 5e-12 where sqrt(1-x^2) is at least 1/2. The value of an expansion differs from its series with the exact Legendre functions, at the coordinates the program computes, by the roundings of C94 and the sum of these errors times the size of what multiplies them.",
 quantifier="all roundings, all degrees up to 20, all orders, all arguments in [-1,1]",
 why_tests_cant="an error bound for every argument and every entry, computed from the text of the 231 formulas; a test compares some entries at some arguments",
 anchors=["source/ass_leg_function.cc: all table functions","include/ass_leg_function.h: GetAssLegFunSph, GetAssLegFunSphDeriv"])
