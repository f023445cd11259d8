import sys; sys.path.insert(0,'/tmp/work')
from setp import setp
setp(id="C31",statement="Blocks are numbered so that each level is a contiguous range startLevel..endLevel, every block except the root has a parent on the previous level that lists it exactly once as a child, a block has at most eight children, and block data (level, delta, corner) follow from the parent's.")
setp(id="C32",title="Childless blocks partition the points, and blocks split exactly when too full",statement="Every node and every quadrature point lies in exactly one block of the childless list; a block is in that list iff it has no children; the root is always split, a block of the last level never, and any other block is split iff the sum over its nodes of 1/(size of the node's double set) is at least max_num_nodes_per_block + 1/2.")
setp(id="C33",statement="Every node of every block lies in the closed box [pMin, pMin+delta]^3 of that block, the root box contains all nodes; the same holds for quadrature points if the root box (built from the nodes alone) contains them; the boxes of the blocks of one level together with the childless blocks above have disjoint interiors, and delta halves at each level.")
setp(id="C34",title="When block storage is large enough",statement="The number of blocks created is at most 9+(N-1)*min(nodes+quadrature points, 8*floor(2*nodes/(2*capacity+1))), so the preallocated number of slots (levels*cells*points per cell) suffices whenever it is at least that bound; it does not always suffice: there are inputs for which the blocks written exceed the slots (out-of-bounds write; a user would expect it never to happen: refuted).")
setp(id="C36",title="What the node-to-block map contains",statement="The dof_to_block list of a node contains only blocks that contain the node; a block with children appears once per child (the root once more), a childless block appears (number of levels - its level) times, so a childless block of the last level never appears (a user would expect the block of each level exactly once: refuted for every node).")
setp(id="C39",statement="Any two blocks that exchange a multipole-to-local conversion are on the same level and their boxes are separated along some axis by at least one block side; any block whose multipole is evaluated at the nodes of a block is on a deeper level and separated from that block by at least its own side; hence the series used converge with ratio at most sqrt(3)/2 and sqrt(3)/3; no entry of a non-interaction list touches its block.")
setp(id="C40",statement="The FMM matrix-vector product at an owned node is exactly the sum over all quadrature points of the density times the kernel value produced by the one way that accounts for the pair: nothing is omitted and nothing counted twice, for every schedule. If every such kernel value is exact the product equals the direct product; if each is within eps, the product is within eps times the l1 norm of the densities.")
setp(id="C41",statement="Every (row, column) written by direct integration is present in the sparsity pattern built beforehand, every entry of the pattern is written, and only owned rows are written, for every order of the work items.")
setp(id="C42",statement="The near-field matrices, the multipole expansions and the FMM product are the same for every order in which WorkStream runs the blocks of each phase (exact arithmetic).")
setp(id="C51",statement="After any history of member calls on an OctreeBlock: the constructor arguments are returned unchanged; the node list is what was added since the last DelNodeList, in order; likewise the quadrature points of each cell; children are returned in the order added and the ninth AddChild writes outside the array; list s of near/interaction/non-interaction blocks holds, in increasing order and without duplicates, exactly the ids added since the list was last cut off by a resize, and adding to a list that does not exist throws. The copy constructor makes an equal block; CopyContent makes the target equal to the source exactly when the target holds no nodes, otherwise the node lists are concatenated (finding).",quantifier="every sequence of member calls")
setp(id="C52",title="What accumulates when the octree is generated again",statement="Any number of earlier calls on the same mesh leaves the blocks, near lists, interaction and non-interaction lists of a new call unchanged, although the map dof_to_elems keeps one more copy of every entry per call; after a call on another mesh the leftover entries can add blocks to the interaction lists (a user would expect no influence: refuted), yet every node/quadrature-point pair is still accounted for exactly once.",quantifier="every history of calls, every mesh")
