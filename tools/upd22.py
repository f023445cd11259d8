from setp import setp
setp(id="C78", title="Which cells the curvature loop refines and along which normal they are projected",
 statement="During curvature refinement a cell with a CAD surface is refined exactly if its diameter exceeds ten tolerances and fewer than 'cells per circle' cells of its size fit on the circle of the larger principal curvature found at its projected centre (curvature never taken below the tolerance); a cell without a CAD surface is treated as one on a surface of curvature equal to the tolerance, so it may be refined (the comment 'never refined' is refuted). If the loop ends before its cycle limit every cell of the final mesh meets the criterion. More cells per circle, larger cells or larger curvatures never remove a flag. The centre is projected along a unit vector; for a planar convex cell it is the normal of its plane in the orientation of the cell's vertices, for any planar cell it is the normal of the plane on the side from which most of the four slices run counter-clockwise, and it is undefined (0/0) exactly if a slice is degenerate or the slices cancel.",
 quantifier="all cells (four vertices in space), principal curvatures, tolerances, numbers of cells per circle, meshes and refinement operators",
 why_tests_cant="tests refine a few CAD shapes; which cells are flagged and that the final mesh meets the criterion must hold for all geometries and parameters",
 anchors=["source/computational_domain.cc:ComputationalDomain::refine_and_resize (744-853)"])
import json
st=None
for l in open('/verif/properties.jsonl'):
    d=json.loads(l)
    if d['id']=='C75': st=d
if 'fast product' not in st['statement']:
    st['statement']+=" In FMM mode the residual is that of the Direct system up to the truncation error of the two fast products (C59): the vector returned by the FMM solve is within M(1+W)(max|r|+err) of the exact solution of the Direct system, M its stability constant and err the bound of C59 on the fast product minus the Direct one."
    setp(**st)
