from setp import setp
import json
d={}
for l in open('/verif/properties.jsonl'):
    x=json.loads(l); d[x['id']]=x
c=d['C74']; 
c['statement']=c['statement'].replace("the hypersingular free terms and the hypersingular gradients; all others","the hypersingular free terms and the hypersingular gradients; for these every contribution is delivered, once and in order, before the public call returns; all others")
setp(**c)
setp(id="C75", title="What the vector accepted by the linear solver satisfies",
 statement="GMRES returns a vector with some residual, not an exact solution. When some boundary id is Dirichlet, for ANY vector with a finite residual r (right hand side minus constrained operator), the potential and flux written back satisfy the problem of C65 with each condition violated by an amount read off r: the discrete boundary integral equation at an unconstrained node i fails by exactly r_i; the potential imposed at a coincident Neumann node, and the edge flux imposed at a coincident Dirichlet node, are missed by exactly r_i; two coincident Neumann nodes differ by at most |r_i|+|r_f| (exactly r_i unless the first node of the group is hanging); a hanging relation fails by at most |r_h| plus the weighted residuals of its parents; imposed data are untouched. The residual vanishes exactly for the exact solutions. If the problem is stable with constant M, the returned potential and flux are within M(1+W) max|r| of the exact ones, W the largest sum of absolute weights of a constraint. The solver tolerance bounds the PRECONDITIONED residual only: the residual itself is bounded by the tolerance times the row norms of the matrix the preconditioner inverts, and can exceed the tolerance by any factor even with a perfect preconditioner.",
 quantifier="all systems with linear layer operators (Direct or FMM), right hand sides, constraint sets, partitions, all vectors the solver may return, all preconditioners and tolerances",
 why_tests_cant="a test compares one solve with one reference up to some tolerance; which of the conditions absorbs the solver error, and by how much, for every system cannot be observed",
 anchors=["source/bem_problem.cc:BEMProblem::solve_system","include/constrained_matrix.h:ConstrainedOperator","source/bem_problem.cc:BEMProblem::compute_constraints","source/bem_problem.cc:BEMProblem::parse_parameters (solver_control)"])
