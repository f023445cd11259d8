from setp import setp
A=["source/multipole_expansion.cc: MultipoleExpansion::Add, AddNormDer, Evaluate","source/local_expansion.cc: LocalExpansion::Add, Evaluate","include/local_expansion_coeff.h"]
setp(id="C57",title="Multipole expansions approximate the true potential within an explicit bound",
statement="For truncation order p <= 20 and any history of Add(strength, point), AddNormDer, Add(expansion, factor) and Add(expansion), the value returned by MultipoleExpansion::Evaluate at a point x farther from the centre than every source differs from the exact potential (sum of q/|x-y| for charges and q (x-y).n/|x-y|^3 for dipoles along the unit normal n) by at most the sum over the sources of |q| (a/r)^(p+1)/(r-a) for charges and sqrt(2) |q| (a/r)^p (p+1-p a/r)/(r-a)^2 for dipoles, where a is the distance of the source and r the distance of x from the centre. Exact arithmetic.",
quantifier="all orders p <= 20, all finite lists of charges and dipoles, all histories of additions, scalings and translations, all evaluation points outside",
why_tests_cant="The error bound is a statement about an infinite series for every source configuration and every evaluation point; tests compare a few points with a tolerance and miss sign or normalisation errors in high orders.",anchors=A)
setp(id="C58",title="The far-field chain P2M, M2M, M2L, L2L, L2P approximates the true potential within an explicit bound",
statement="For truncation order p <= 10, a LocalExpansion obtained by any history of conversions of multipole expansions and translations of local expansions evaluates, at every point x different from its centre and separated from the sources of every conversion (|x-cl| + |y-cm| < |cm-cl|), to the exact potential of all the sources up to the sum over the sources of (p+1) times the bound of C57 with a replaced by |x-cl|+|y-cm| and r by |cm-cl|. Above order 10 the conversion of a non-zero multipole is undefined (table out of range).",
quantifier="all orders p <= 10, all histories of conversions and translations, all finite lists of sources, all separated evaluation points",
why_tests_cant="Same as C57; in addition the M2L coefficient table has five indices and a sign convention, and a wrong entry in high order changes values by less than typical test tolerances.",anchors=A)
