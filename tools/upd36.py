from setp import setp
import json
C74=[json.loads(l) for l in open('/verif/properties.jsonl') if json.loads(l)['id']=='C74'][0]
st=C74['statement']
if 'Every process owns a node exactly when' not in st:
    st+=" Every process owns a node exactly when each process has a cell with a node that no cell of a lower-numbered process touches; so there must be at least as many nodes as processes, elements with a node inside each cell (degree two and higher) are safe as soon as every process has a cell, while with degree one having a cell is not enough: on a cube of six faces a partition that gives every process a cell leaves one process without node."
setp(id='C74',statement=st)
setp(id="C91", title="Multipole expansions in double precision: what stays finite, and the polar axis",
 statement="In double precision (53 bits, no overflow or underflow, whatever the C library returns for cosine, sine, arc tangent and powers), for orders 1 to 20: the computed cosine of the polar angle of a source or evaluation point, other than the centre, always lies in [-1, 1], so no table takes the root of a negative number; adding a charge and evaluating the expansion give finite numbers for every such point. A point whose angle with the vertical line through the centre is below 2^-27.5 is treated as lying on that line, one whose angle is at least 2^-25 never is. Finding: adding a dipole of nonzero strength makes the expansion NaN exactly when its point is treated as lying on the line, although the formula is defined in exact arithmetic for every point off the line; and a charge treated so adds nothing to the moment of degree and order one, whose exact size is |q| a / sqrt 2, a the distance from the line.",
 quantifier="all points, centres, strengths, normals, previous coefficients, orders 1..20, and all behaviours of the library functions",
 why_tests_cant="the loss happens for points within 4e-9 rad of an axis through a block centre, and for every order and library; finiteness must hold for every double",
 anchors=["source/multipole_expansion.cc: MultipoleExpansion::Add(double, Point), AddNormDer, Evaluate","source/ass_leg_function.cc: AssLegFunction::GetAssLegFunSph, GetAssLegFunSphDeriv and all table members"])
