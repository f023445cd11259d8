from setp import setp
setp(id="C05",title="The zero flag is sound",
 statement="Whenever a multipole or local expansion obtained from the sized constructor by any history of Add(strength,point), AddNormDer, scaled Add, translation and conversion reports is_zero, all its coefficients are zero and Evaluate returns 0 at every point; adding a zero expansion, a zero strength or a zero scaling never changes anything; and after expanding regular sources the flag is set exactly when every strength is zero. Exception (finding): LocalExpansion::Add(real,imag) leaves the flag set when the squared sum is at most 1e-20 although the coefficients are not zero, and for p>=1 it writes outside the coefficient array.",
 quantifier="every history of operations starting from freshly constructed expansions, every operand itself built that way",
 why_tests_cant="it is an invariant over all operation histories",
 anchors=["source/multipole_expansion.cc: Add, AddNormDer, Evaluate","source/local_expansion.cc: Add, Evaluate"])
setp(id="C06",title="Accumulation of sources is linear and order independent",
 statement="A list of accumulating calls on an expansion gives the same order, center, flag and coefficients in any order (and is undefined in one order iff in all); the coefficients are the initial ones plus what each call alone leaves in an empty expansion; each call is linear in its strength or solution value; Evaluate is linear in the coefficients, so Evaluate of two batches together is the sum of the Evaluates. A nonzero charge at the center, p>20, or a nonzero operand of smaller order is undefined behaviour.",
 quantifier="every list of calls, every permutation of it, every strength, solution value and evaluation point (exact arithmetic)",
 why_tests_cant="order independence quantifies over all permutations of all histories",
 anchors=["source/multipole_expansion.cc: Add(3 overloads), AddNormDer, Evaluate","source/local_expansion.cc: Add, Evaluate"])
setp(id="C07",title="Multipole-to-multipole translation is exact",
 statement="Translating the expansion of any list of charges and dipoles about c1 into an expansion about c2 adds exactly the coefficients that direct expansion of the same sources about c2 gives, for every order p<=20 and every pair of centers farther apart than 1e-7, when no charge is at a center and no dipole on the vertical line through a center. Finding: at distance at most 1e-7 the coefficients are copied, which is inexact unless the centers are equal.",
 quantifier="every finite list of charges and dipoles, every pair of centers, every order p<=20, every target expansion",
 why_tests_cant="the identity is an addition theorem over real coordinates; tests sample points",
 anchors=["source/multipole_expansion.cc: Add(const MultipoleExpansion&), Add(strength,point), AddNormDer","include/multipole_expansion.h: A_n_m_Matrix"])
setp(id="C08",title="Local-to-local translation is exact",
 statement="Translating any local expansion into another one of the same order about another center adds, to the value at every point other than the two centers, exactly the value of the original there, for every order p<=10 and centers farther apart than 1e-7 (at smaller distance the coefficients are copied). For p>10 the translation reads outside its table.",
 quantifier="every local expansion with arbitrary complex coefficients and a sound flag, every target, every pair of centers, every evaluation point, every p<=10",
 why_tests_cant="identity over real coordinates and arbitrary coefficients",
 anchors=["source/local_expansion.cc: Add(const LocalExpansion&), Evaluate","include/local_expansion.h: lExp_to_lExp_Coeff_Build"])
setp(id="C09",title="Dipole sources are the directional derivative of charges",
 statement="AddNormDer(strength,point,normal) adds to every coefficient exactly strength times the derivative, at the point and in the direction of the normalised normal, of what Add(1,point) leaves, for every point not on the vertical line through the center. Finding: on that line (where the derivative exists) and for a zero normal the code divides by zero.",
 quantifier="every order p<=20, every center, point, nonzero normal and strength",
 why_tests_cant="derivative identity over the reals plus a singular set of measure zero that random tests never hit",
 anchors=["source/multipole_expansion.cc: AddNormDer, Add(strength,point)"])
