# Formal model of mathLab/pi-BEM in Rocq (Coq 8.16.1)

`rocq/theories` contains four kinds of files:

* `Model*.v` — executable or mathematical transcriptions of functions in /repo. Every definition
  carries a comment with file and lines; simplifications are stated in that comment or in the file header.
* `Spec*.v` — small specifications, independent of the model's helpers, in which property statements are phrased.
* `Proofs*.v`, `LibSum.v` — lemmas.
* `Prop*.v` — the property theorems, named `Cxx_...` after the property, and beside them `Example`s showing that
  concrete cases meet the hypotheses (or that a hypothesis cannot be dropped).

`Assumptions0.v`–`Assumptions3.v` run `Print Assumptions` on every property theorem at each build; the result, per
theorem, is in `ASSUMPTIONS.md`. `MANIFEST.json` maps properties to theorems.

## Modelling conventions

* `double` arithmetic is modelled by exact arithmetic: `Q` (where the model is meant to be run: octree, meshes) or `R`.
  Rounding, overflow and NaN are outside the model, except that division by zero, the root of a negative number and
  `acos` outside [-1,1] are the distinct outcome `None` wherever a property is about them.
* `unsigned int` is modelled with explicit `mod 2^32` where the code relies on wrap-around
  (`LocalExpansionCoeff::get/set`, cycle counters of the driver, material ids); elsewhere it is `nat`.
* Undefined behaviour (out-of-bounds, use after free, double free, reading uninitialised memory) is a distinct
  outcome (`None` / `UB`) of the model functions.
* deal.II, Trilinos, METIS, OpenCASCADE and MPI calls are parameters of the model (function arguments or record
  fields), with the assumed contract written at the definition.
* WorkStream: `run(begin,end,worker,copier)`: in ModelFmm workers are functions of the shared state and of the item, and
  copiers are applied one after another in an arbitrary order (a permutation). C68–C70 justify this: ModelConc/ModelWork
  model the threads, their memory accesses and the reused CopyData objects, and prove that every interleaving is such a run.
* MPI: a distributed vector is a global function; a process is given by its owned index set.
* A property found false of the code is restated in `properties.jsonl` as the exact characterisation of what the code
  does; the theorem that refutes the expected claim has `refuted` in its name or is an `iff`.

## Which code is modelled

| file | source modelled |
|------|-----------------|
| ModelStore, ModelValue | multipole_expansion.{h,cc}, local_expansion.{h,cc}, local_expansion_coeff.{h,cc}: coefficient storage, constructors, copy, assignment, destruction |
| ModelExp | multipole_expansion.cc 75-298, local_expansion.cc 82-287; coefficient tables of the headers (A_n_m, M2L, L2L) |
| ModelOrder | every table access of the expansion operators as a function of the order |
| ModelLegendre, ModelLegTable, ModelLegApi | ass_leg_function.cc, all of it; the 462 bodies are generated from the C++ text by tools/leg/gen.py |
| ModelKernel | laplace_kernel.h 15-162 |
| ModelBlock | octree_block.{h,cc}, all member functions |
| ModelOctree, ModelRegen | bem_fma.cc 3850-5208 (generate_octree_blocking); repeated calls |
| ModelFmm, ModelFmmExp | bem_fma.cc 127-3284: direct_integrals, multipole_integrals, generate_multipole_expansions, multipole_matr_vect_products; FMA_preconditioner is in ModelBem |
| ModelConc | the machine of the parallel loops: shared memory with torn writes, tbb::parallel_for, dealii::WorkStream::run with reused CopyData objects |
| ModelWork | bem_fma.cc 233-590, 735-1300, 1791-1915, 2150-2515, 2569-3200, 3311-3570: workers, copiers and loop bodies as concurrent programs over explicit shared locations |
| ModelOwn | bem_problem.cc 172-300, 318-323, 731-751, 1804-1807; boundary_conditions.cc 186-189, 311-314: reinit's numbering and ownership |
| ModelErr | boundary_conditions.cc 345-542: compute_errors |
| ModelBem | constrained_matrix.h; bem_problem.cc: vmult, compute_rhs, solve_system, compute_alpha, compute_dirichlet_and_neumann_dofs_vectors, compute_double_nodes_set, compute_constraints, assemble_preconditioner; bem_fma.cc FMA_preconditioner |
| ModelBc | boundary_conditions.cc prepare_bem_vectors, solve_problem, vector_shift; bem_problem.cc renumbering tables, function-static caches, spheroid stretching (193-208) |
| ModelAssemble | bem_problem.cc 752-1245 (assemble_system) and the quadrature rules of both modes |
| ModelFloat | laplace_kernel.h 91-110, bem_problem.cc 888-910, 1138-1151 with every operation rounded |
| ModelProj | bem_problem.cc 2261-2569, 2914-3017 (compute_gradients, compute_surface_gradients, compute_normals) |
| ModelRules | bem_problem.cc 836-903, 1118-1151: points, normals, kernels of the regular and singular rules, as used by assemble_system |
| ModelResid | bem_problem.cc 1705-1708, 1744, 1752: residual and stopping test of the solver (contract) |
| ModelSolve | bem_problem.cc 1701-1815 (solve_system), 2085-2092 (merge, close); the GMRES solver is not modelled |
| ModelHyp, ModelHypGrad | bem_problem.cc 1248-1554 (compute_hypersingular_free_coeffs), 2571-2912 (compute_gradients_hypersingular) |
| ModelSing | singular_kernel_integral.cc 40-1547 |
| ModelDriver, ModelConform | driver.cc 76-127; computational_domain.cc 555-888, 978-1185 |
| ModelCurv | computational_domain.cc 744-853: curvature criterion and cell normal |
| ModelRun | the composition bem_problem.cc 172-393, 576-729, 752-1245, boundary_conditions.cc 165-343, bem_problem.cc 1701-1815 for a number of processes and a partition; normals and surface gradients are parameters |
| ModelGeom | bem_problem.cc 189-222 over repeated calls of reinit (driver.cc 100-120) |
| ModelFiles | boundary_conditions.cc 160-199, 346-353, 546-625 (which vectors are written) with the projections of ModelProj and the solve of ModelRun |
| ModelRunFmm | bem_problem.cc 1570-1580, 1615-1638, 1668-1690, 1743-1760, 1841-1856: one FMM-mode solve on given processes, composed from ModelRun, ModelOctree, ModelFmm, ModelFmmExp |
| ModelParams | computational_domain.cc 66-180, bem_fma.cc 73-126, bem_problem.cc 458-573 (integer and list entries), with deal.II's split_string_list, Patterns::Integer/List |
| ModelTwoFe | bem_problem.cc 118-151, 159-187, 226-267, 731-751, 1958-1964, 2787-2845; boundary_conditions.cc 306-311, 434-465: reinit and the index rules when the scalar and the vector element differ |
| ModelHistory | driver.cc 78-114 with bem_problem.cc 189-222, 421-456, 1557-1569 and bem_fma.cc 3989-3993: what one refinement cycle leaves to the next |
| ModelFloatSolve | bem_problem.cc 1556-1690 (Direct branches, some Dirichlet node) and constrained_matrix.h 93-146 with rounded operations |
| ModelTrueCon | include/true_constrained_matrix.h 46-206 (a second ConstrainedOperator, included by no file) on one process |
| ModelFloatExp | multipole_expansion.cc 94-187, 269-298 and all tables of ass_leg_function.cc with rounded operations |
| ModelFloatExp2 | multipole_expansion.cc 75-92, 188-266, local_expansion.cc 111-293, the coefficient tables of both headers, with rounded operations |
| ModelMain | main.cc 5-56, driver.cc 76-123 as the calls made, with exceptions; atoi from ISO C |
| ModelFloatFmm | bem_fma.cc 1750-3284 with the expansions of ModelFloatExp, ModelFloatExp2 (computed block centres, NaN) |
| ModelCache | cached_nurbs_patch_manifold.cc 16-23, 134-162 |
| ModelColl | the calls on distributed objects of bem_problem.cc, bem_fma.cc, boundary_conditions.cc, constrained_matrix.h, driver.cc (dim = 3), without values |

Not modelled: floating-point rounding (except C68, C69 and C73, where the additions, products and quotients of the FMM loops are
a parameter - class `arith` in ModelFmm - so that the statements hold bit for bit in any arithmetic; the near-field rounding
bounds of C73; the Direct matrices, kernels and system in C79, C80, C89; the expansions in C91 (finiteness); and the coordinate arithmetic of the octree, where C30-C32, C34-C38, C40-C42 and
C52 hold for an arbitrary rounding function and C33, C39 for bounded rounding errors), convergence of GMRES/ILU/AMG, METIS partitions, OpenCASCADE geometry, deal.II
internals (mapping, FEValues, refinement, constraints: contracts only), output and timing code, the layout of parameter
files (the text of single entries is C86), the error estimator's values. Functions nobody calls: ComputationalDomain::create_initial_mesh and
conditional_refine_and_resize, BEMFMA::compute_geometry_cache (which would read past the end of its gradient index vector), BEMFMA/BEMProblem code that is commented out, time_integrator.h; of true_constrained_matrix.h, runs on several processes.

## Properties: what is modelled and how it is proved

| id | model | proof |
|----|-------|-------|
| C01 | triangular index and buffer as list | arithmetic, list update lemmas |
| C02 | index with mod 2^32, buffer as list | arithmetic; bijection by injectivity + counting |
| C03 | memcpy of N bytes into fresh uninitialised cells | exact characterisation, hence refutation of "copy = original" |
| C04 | heap machine (alloc/free/UB) for whole programs | simulation of a heap-free value semantics; counterexamples for the two excluded operations |
| C05,C06 | expansion state machine over R, histories as inductive predicates | invariants by induction over operations; permutation of calls |
| C07,C08 | `Add` translations over R/C with the Legendre table of C11 | addition theorem for solid harmonics from a generating recurrence |
| C09 | AddNormDer over R | chain rule with the table derivative of C12 |
| C10 | list of table indices reached by the loops | arithmetic; iff order <= 10 |
| C11,C12 | all 462 generated functions as an AST | verified normaliser + vm_compute over the finite table, soundness lemma over R |
| C13,C14 | kernels over R | derivative computations |
| C15,C16,C17 | ConstrainedOperator, preconditioner rows over R | algebra; partitions as arbitrary ownership functions |
| C18,C19,C20 | compute_constraints as a fold over dofs | induction over dofs; field |
| C21,C22,C23 | loops over cells/dofs as folds | induction |
| C24,C25,C26 | vmult, compute_rhs, scatter over R | algebra |
| C27 | static-cache state machine | invariant over histories; counterexample |
| C28,C29,C54 | loops over cells; shift; end-to-end composition | induction |
| C30–C36 | generate_octree_blocking as a level-by-level fold over rational points with an arbitrary rounding function | invariants by induction over levels |
| C37–C39 | neighbour and interaction lists, level by level | induction on levels, tree ancestry, box geometry |
| C40–C42 | all FMM loops over abstract expansions with linear operations, arbitrary schedules | simulation by formal combinations of unit sources; permutation induction |
| C43 | cache as association list keyed by the printed point | invariant; characterisation of equal keys |
| C44,C45,C46,C55 | driver trace, mesh loops with oracle refinement, id tables | induction over cycles |
| C47 | polar decomposition of the closed unit square | real analysis (atan2), covering and uniqueness |
| C48,C49,C56 | Laurent coefficients, jacobian derivatives, finite part. Contracts: normal*JxW = X_u x X_v, jacobian and jacobian_grad as documented; quadrature replaced by exact integrals | Taylor expansion with explicit remainders; limits |
| C50 | band loops | arithmetic |
| C51,C52 | block records, regeneration | induction over member calls / over histories |
| C53 | spheroid loop through the renumbering tables | algebra |
| C57,C58 | histories of the expansion classes stand for lists of sources (`multipole_of`, `local_of`) | Legendre series of 1/r with explicit tail; M2L double series, Cauchy–Schwarz norms of solid harmonics |
| C59 | ModelFmmExp: the loops of bem_fma.cc with the classes of ModelExp | C37–C40 composed with C57/C58; hypothesis `general_position` (no quadrature point at a leaf centre/axis, where the code divides by zero), p <= 10 |
| C60 | both assembly modes over shared mesh data | sums over cells; C59 for the difference |
| C61 | one projection record for the three functions; homogeneous hanging-node constraints (distribute_local_to_global contract); exact solve | weak form, best approximation, uniqueness |
| C62,C63,C64 | free coefficients, b_i, cofactor inverse and cell loops; NaN as None | angle sorting, Gauss–Bonnet type sums, derivative of the representation formula |
| C65,C66,C67 | solve_system as a whole: merge/close of constraints, constrained operator, write-back; pure Neumann operator; FMM products of C59 as layer operators | case analysis of compute_constraints per node (node_line), C15 + C25; quadratic identity for c; C59/C60; difference of two solutions by linearity and the stability hypothesis (PropClose), lifted to whole runs with C82 (PropRunClose) |
| C68,C69,C70 | workers/copiers/bodies as interaction trees of reads and writes, all interleavings; SpecConc: conflicts in reachable states | footprint (separation) invariants: every loop refines the sequential loop in some item order; then C42, C59, C17. Termination by a well-founded measure |
| C71 | ModelOwn: association, subdomain_wise renumbering, reordering vectors, index sets; SpecOwn: least subdomain around a dof | counting argument: stable sort by subdomain is a bijection onto blocks |
| C72 | ModelErr: compute_errors with the tables of ModelOwn; quadrature as point/weight lists | table inverses of C71; max/sum characterisations |
| C73 | ModelFmm over an arbitrary arithmetic; SpecBit: binary64 by Flocq's FLT format and round-to-nearest-even, standard model of rounding | commutation of items with disjoint rows (fold over a permutation), error calculus by induction over the sums, counting of the adds per entry; a tie computed in binary64 |
| C74 | per-process events on distributed objects, library bookkeeping, joint executions (ModelColl, SpecColl) | abstract interpretation of the per-process programs proved sound once, checked per routine; invariant over histories of calls; progress and termination of the joint execution |
| C75 | ModelResid: residual of the system of ModelSolve for an arbitrary vector; acceptance test | the vector corrected by its residual on the constrained dofs satisfies the lines (closed lines refer to unconstrained dofs); row identity for the equation nodes; `stable` for the distance |
| C76 | ModelRules + ModelAssemble (matrices), ModelSolve (system), ModelProj (normals, gradients), ModelOctree/ModelFmm (lists); SpecUnits, ProofsScale, ProofsSmall | kernels of a scaled and turned difference; C65 iff on both systems; weak form of the projection; step by step simulation of the tree construction; all boxes touch when the mesh is below the tolerance |
| C77 | ModelOctree/ModelFmm lists; SpecWorkload (pairs visited), ProofsWorkload | boxes of a cut have integer grid corners and disjoint interiors; packing: at most 27 blocks of a cut touch one side of the pair (the larger), 189 = 27*8 - 27 conversions; duplicates excluded by the cut property |
| C78 | ModelCurv: normals of the four slices, target size, refine flag; loop from ModelDriver | flag: real arithmetic; normals: on a planar cell each cross product is a multiple of the plane's normal, so normalising leaves signs; final mesh: C45's early stop |
| C79 | ModelAssemble in an arbitrary arithmetic (class `arith`); row_product with the column order as argument | entries: rows of other nodes do not touch a row, in any arithmetic; bounds: composition of standard-model errors over the fold; ties in binary64 for the refutation |
| C80 | ModelFloat: laplace_kernel.h 91-110 and the assembly with every operation rounded | relative-error calculus: a value is t times the exact one, (1-u)^k <= t <= (1-u)^-k; sums of squares and square roots keep it; a logarithm turns it into an absolute error (2D); then C79's composition |
| C81 | ModelAssemble rows, ModelSolve constraints and system | rows: the fold of additions reads only the node's point and its double set; singularity: more unknowns than independent rows (LibLinAlg); equations: C65 plus equality of rows |
| C82 | ModelRun: reinit, kinds, double nodes, assembly, boundary data, constraints composed for a partition of the cells; SpecRenumber | both runs satisfy C65's discrete problem; the problem is invariant under renaming; tables of C71 give the renaming; refutations by 3- and 6-node examples |
| C83 | ModelGeom: reinit's position vector, stretching and mapping over a sequence of calls | induction over the calls: after the first one the mapping exists and nothing is stretched; C53 for the first |
| C84 | ModelFiles: normals, data gradients, solve, gradients and the output vectors composed from ModelRun and ModelProj | C61's weak form read in the numbering of the mesh; uniqueness by positivity; C82 for phi and dphi_dn; refutation by a solved two-segment problem |
| C85 | ModelRunFmm: ModelRun with the fast products on the octree of the renumbered mesh; SpecFmmRenum: the same mesh under another numbering | the construction of the tree and the lists is followed step by step under the renumbering (boxes equal up to the names of the nodes); the product as a sum of used kernels (C40, C59) is then equal term by term; coincident nodes are in the same boxes at every level; C82's abstract theorem gives the runs; refutation by a stale table entry |
| C86 | ModelParams: splitting of lists, patterns, conversion of numerals, unsigned members | spec: numerals and lists as grammar; shape lemmas for each scanner in both directions, induction over the fields |
| C87 | ModelTwoFe: both renumberings and the shared inverse-table loop with separate numbers of nodes, unchecked reads as None | spec: SpecTwoFe (deal.II guarantees for two handlers); the renumberings are permutations (ProofsOwn), induction over the loops, reconnected with C71 for equal elements; counterexample polygon |
| C88 | ModelHistory: Driver::run with the state that survives a cycle (map_vector and mapping, static ones and quadratures, dof_to_elems); the answer of a cycle is any function of its mesh and that state | spec: SpecHistory (what a log of solves should be); invariant of the surviving state over the loop; refinement to the memoryless driver of C44; FMM closeness from C67 with leftovers as an argument of ModelRunFmm |
| C89 | ModelFloatSolve: alpha, vmult, compute_rhs, ConstrainedOperator of a run, every operation rounded, on the matrices of ModelFloat | spec: SpecFloatSolve (sizes of rows, rounding budget); forward error analysis over C80 (products of approximations, sums), then C75 turns the residual of the computed system into a distance to the exact run; absorption shown with Flocq's 53-digit rounding |
| C90 | ModelTrueCon: the loops of constraint_vmult/constraint_tvmult, vmult, distribute_rhs, finalise over an abstract matrix product | spec: admissible vectors and the weak (Galerkin) problem; the transpose loop's invariant gives its entries in closed form, from which the transpose identity (iff lines name earlier dofs), the equivalence with the weak problem and singularity follow |
| C91 | ModelFloatExp, ModelFloatExp2: all calls on expansions over rounded operations and an arbitrary C library (record fmath) | rounding is monotone and exact on doubles, |z| <= computed rho, hence the computed cosine is in [-1, 1]; closeness to the axis by absorption; the 231 table programs and derivatives run through a verified checker (signs, no root of a negative, no division by zero); loops and histories by induction; with exact operations the model equals ModelExp (C05-C09) |
| C92 | ModelMain: main as a sequence of calls that return or throw over an arbitrary world | each piece of program performs a list of calls (returns all, or the first that throws stops it), by structure and induction on the cycles; determinism of the specification gives the iff; the argument by the numeral lemmas of C86 |
| C93 | ModelFloatFmm: the loops of ModelFmm over ModelFloatExp, ModelFloatExp2 (eops record), None for expansions that are not finite | spoilt expansions: never mended by any operation, carried up by induction on the levels along the ancestors of the leaf, down along the ancestors of the leaf of the node; converse: two runs with different junk related step by step, the relation demanding finiteness of an expansion only if nothing it receives is spoilt; centres by two roundings; with exact arithmetic the object is the one of the exact product, step by step |
| C94 | ModelFloatExp, ModelFloatExp2 (fm2l, fl2l, fm2m, charges, dipoles, sums, evaluations) with any rounding of relative error u | number of roundings counted through each factor and each sum (ap, near of ProofsFloat); histories by induction on the calls, the error of what was there growing with each addition; formulas tied to the exact program by u = 0
| C95 | the 231 table functions and derivatives as program text (ModelLegTable) evaluated by frun with any rounding | an abstract interpreter over the text computes roundings, size and sensitivity to the root; soundness by induction on expressions, all entries by vm_compute

Not expressible here: floating-point rounding error of the solvers and of whole fast products (C80, C91, C94, C95 bound the parts), GMRES/ILU convergence, METIS partition quality, OpenCASCADE geometry.

## Findings (behaviour a user would not expect, each with a theorem)

C03 truncated copy of the M2L table; C04 self-assignment and default-constructed sources of expansions; C05 flag and
out-of-bounds write of `LocalExpansion::Add(real,imag)`; C07/C08 inexact shortcut below 1e-7; C09 division by zero on
the vertical axis; C10 orders above 10; C12 poles; C13/C14 sign of the three-output overload, diagonal of `hypersingular`;
C17 sign of constrained rows in the preconditioner; C20 dead branch for coplanar Dirichlet nodes; C21 partition dependent
Dirichlet marking; C24 pure Neumann operator is not linear; C25 FMM `compute_rhs` accumulates; C27 stale singular quadratures;
C34 block storage overflow; C36, C52 node maps; C43 cache collisions; C44 cycle number -1; C45 conformity loop overflow, edges graded twice stay open, a corner at the origin is cut down to 1e-7;
C46 manifold id collision; C50 wrong matrix across types; C51 CopyContent concatenates; C53 z axis applied to y; C54 mixed
dofs; C55 material id 0; C60 ignored quadrature type, different singular rules; C62 re-entrant corners, opposite faces,
integer division in 2D; C63 b_i accumulates; C65 hanging nodes with mixed parents; C66 pure Neumann systems without solution;
C71/C74 a process with cells may own no unknown, and `nth_index_in_set(0)` is then undefined; C73 the order of siblings in the upward pass changes the bits of the product; C72 "Phi Nodes error L_inf norm" is the largest
cell L2 error; C75 the solver tolerance bounds the preconditioned residual only; C76 absolute tolerances (1e-3 in the
neighbour tests, 1e-10 for double nodes) and a root box centred at the origin: small or distant meshes have no far field; the 2D kernel and mixed
hanging nodes depend on the unit; C77 the work is quadratic when the boxes are smaller than that tolerance or than the cells; C78 a cell without CAD surface
can be refined although the comment says never, a curvature (1/length) is compared with a length tolerance, and the projection
direction of a degenerate or bow-tie cell is 0/0; C79 products of
the Direct matrices depend on the distribution in the last bits; C81 with continuous gradients off, two Dirichlet nodes at one point make the system singular;
C82 nodes of cells of both kinds, and corners of three Dirichlet faces, make the answer depend on the partition; C83 the spheroid is lost from the second refinement cycle on, and
with the Q mapping its stretching writes outside an empty vector; C85 stale entries of earlier cycles make the FMM lists depend on the numbering, hence on the number of processes; C93 one such point makes the rows of far nodes NaN; C91 dipoles within 4e-9 rad of the vertical line through a centre make the expansion NaN although the exact formula is defined; C86 negative integers are accepted and wrap around; C90 the other ConstrainedOperator adds to its destination and loses contributions to later dofs; C87 different scalar and vector elements with equal node counts silently give nodes the normals of other cells, fewer vector nodes read outside the tables; C84 the output field phi_surf_gradient is the surface gradient of the boundary data, C88 a cycle depends on earlier ones through the spheroid, the layout of the vector of ones and (FMM) the node-to-cell map; C89 a constrained row is computed as dst += src - dst and loses constraints on unknowns below 2^-53 of the row of the matrix; C80 in 2D -log(r) loses its relative accuracy near r = 1 (r is rounded first);
not of phi; C69 `LocalExpansion::operator=` (and the copy constructor) writes the static `mExp_to_lExp_Coeff` back to itself inside parallel
loops: a data race, harmless only because words are written atomically. Not theorems, seen while modelling: operator= leaks the
old coefficients; the multipole_integrals worker never clears its maps and f_worker_prec keeps a stale row for dofs it does not
own (both shown harmless by C68/C70); f_copier_Descend adds to entries of other processes (never delivered, C74); a shared timer is started and
stopped by concurrent Descend workers.

## Trusted base

* Coq's kernel (8.16.1), including `vm_compute`.
* The faithfulness of the transcription: the code is not executed here. The deal.II/MPI/OpenCASCADE contracts named above. For C74:
  the bookkeeping of deal.II's Trilinos wrappers (a write of the other kind than the unfinished one assembles globally; compress
  uses the kind of the unfinished writes, or the requested one if there are none, and asserts that they agree; reinit, assignment
  and `= 0` forget unfinished writes; importing marks the vector as inserted; products, norms, `+=` on whole vectors leave the
  record alone), that every operation on a whole object may involve all processes, that AffineConstraints::distribute is an
  import, owned writes and compress(insert), and that GMRES takes the same number of steps on all processes.
* The axioms `Print Assumptions` lists, per theorem, in ASSUMPTIONS.md. They are all from the standard library:
  `ClassicalDedekindReals.sig_forall_dec`, `ClassicalDedekindReals.sig_not_dec`,
  `FunctionalExtensionality.functional_extensionality_dep` (all three underlie `Reals`), and `Classical_Prop.classic`
  (used by analysis lemmas). No axioms of our own, no `Admitted`, no switched-off checks.

## Testing the theorems

`seeded/LOG.jsonl` records edits of the model that mimic realistic bugs, and which theorems then fail. The harness is
tools/mut/run.py: it applies the edit in a copy, rebuilds, admits each failing lemma and continues, and at the end asks
`Print Assumptions` which property theorems rest on an admitted lemma.
