from setp import setp
setp(id="C86", title="The program uses the numbers written in the parameter file",
 statement="An entry for Dirichlet or Neumann boundary ids is accepted exactly if it is a list of decimal numerals from 0 to 2^31-1 separated by commas (blanks around numerals, leading zeros, a plus sign and a trailing comma allowed, nothing at all for the empty list); the ids used are then exactly those numbers in their order, and no text has two readings. An integer entry (cycles, refinements, octree levels, nodes per box, truncation order, quadrature orders, element orders, granularity) is accepted exactly if it is a numeral of a 32-bit number; it is used as written if it is not negative, but negative numbers are accepted too and used as 2^32 more (a user would expect them to be refused: refuted).",
 quantifier="every text of an entry",
 why_tests_cant="tests run a few parameter files; the statement is about every text, including those with unusual blanks, signs or empty fields",
 anchors=["source/computational_domain.cc: ComputationalDomain::declare_parameters, parse_parameters","source/bem_fma.cc: BEMFMA::declare_parameters, parse_parameters","source/bem_problem.cc: BEMProblem::declare_parameters, parse_parameters"])
