import sys; sys.path.insert(0,'/tmp/work')
from setp import setp
setp(id="C43",title="When the CAD projection cache is transparent",statement="CachedNURBS pull_back returns the underlying projection of the first point of the history whose key hashes alike; the key of two points is equal exactly when all three coordinates have the same sign and round to the same six decimals (the three printed numbers never run together ambiguously); so it is transparent for all histories iff points with equal hashes have equal projections, and points closer than the sixth decimal get each other's projection (a user would expect the projection of that very point: refuted). The number of projections computed is the number of distinct hashes queried.",quantifier="every sequence of query points, every hash and projection function")
setp(id="C44",statement="With 0 <= n < 2^32-1 cycles run() terminates after exactly n+1 solves with local refinement (1 with global refinement); each solve is done on structures rebuilt by reinit for the current mesh; mesh k+1 is mesh k adaptively refined with the solution on mesh k and made conformal; nothing is refined after the last solve, so errors and output refer to the last solution on the last mesh. A cycle number of -1, which the parameter file accepts, never terminates with local refinement (finding).",quantifier="every parameter combination, mesh, solver and refinement response")
setp(id="C45",statement="The aspect-ratio loop cuts a cell exactly when its longer extent exceeds the ratio times the shorter, across the longer direction; it runs at most ten cycles (the curvature loop at most the configured number), stops earlier only if no cell was flagged in its last cycle, and after two or more cycles the resulting mesh then has no flagged cell and is conforming (after a single cycle it may not: refuted). The conformity loop sets a flag exactly for boundary faces whose midpoint is the middle of the two far ends at an unmatched boundary vertex, stops only when there is none, is idempotent, and writes outside its two-element vector exactly when an unmatched boundary vertex has a third incident cell with a boundary edge there; at a corner belonging to one cell the second end is taken to be the origin (findings).",anchors=["source/computational_domain.cc: refine_and_resize 555-888, make_edges_conformal 978-1115, compute_double_vertex_cache 1117-1185"])
setp(id="C46",title="When CAD surfaces and curves get distinct manifold ids",statement="After reading the CAD files (numbered from 1 up to the first missing one) every curve i has manifold id 11+i, and every surface i keeps id 1+i iff there are at most ten surfaces or no curve; with eleven surfaces and one curve the eleventh surface's id is taken by the curve (a user would expect no collision: refuted).")
setp(id="C55",title="Curvature refinement looks shapes up safely exactly without material id 0",statement="For every cell the curvature loop measures it against CAD surface (material id - 1) when that exists and against none when the id is larger; for material id 0 (deal.II's default) and ids >= 2^31 it indexes the surface vector out of bounds; so the loop is memory safe exactly on meshes where no cell has such an id.",quantifier="every material id, every number of surfaces, every mesh",why_tests_cant="undefined behaviour on particular ids need not show in a test; the claim ranges over all ids",anchors=["source/computational_domain.cc: refine_and_resize 725-873"])
