from setp import setp
setp(id="C33",statement="In exact arithmetic every node of every block lies in the closed box [pMin, pMin+delta]^3 of that block, the root box contains all nodes; the same holds for quadrature points if the root box (built from the nodes alone) contains them; the boxes of the blocks of one level together with the childless blocks above have disjoint interiors, and delta halves at each level. With coordinates rounded with error at most e per operation (e small against 1/1000/levels and against the geometry) the lower sides still hold exactly and the upper sides up to level*e, and boxes overlap by at most 2*levels*e.",
 quantifier="every point set; every rounding of coordinate arithmetic with bounded error (e = 0: exact)")
setp(id="C39",statement="Any two blocks that exchange a multipole-to-local conversion are on the same level and their boxes are separated along some axis by at least one block side; any block whose multipole is evaluated at the nodes of a block is on a deeper level and separated from that block by at least its own side; hence the series used converge with ratio at most sqrt(3)/2 and sqrt(3)/3; no entry of a non-interaction list touches its block. With rounded coordinates the separations lose at most 2*levels*e: the code's absolute tolerance 1/1000 absorbs every rounding error in the neighbour tests.",
 quantifier="every pair of blocks related by the non-interaction lists; every rounding of coordinate arithmetic with bounded error")
setp(id="C30",quantifier="every finite set of node and quadrature positions, every number of levels and block capacity, whatever the rounding of coordinate arithmetic")
setp(id="C31",quantifier="every input point set, number of levels and block capacity, whatever the rounding of coordinate arithmetic")
setp(id="C37",quantifier="every mesh, octree depth, capacity and pair (node, quadrature point), whatever the rounding of coordinate arithmetic")
