notes={
"C01":("proved","Order bounded only by the 32-bit size computation."),
"C02":("proved",""),
"C03":("proved","The copy constructor passes an element count where memcpy wants bytes: exact characterisation, and refutation of 'the copy equals the original'."),
"C04":("proved","Value semantics for all programs without self-assignment and without default-constructed sources; both exceptions are proved to fail; leak count exact."),
"C10":("proved","Iff theorem: safe exactly up to order 10."),
}
notes.update({
"C15":("proved",""),"C16":("proved",""),
"C17":("proved","Unconstrained rows agree with the operator; constrained rows have the wrong sign (iff and counterexample)."),
"C18":("proved",""),"C19":("proved",""),
"C20":("proved","The claim a user would expect is refuted: branch dead, division by zero, unsolvable system."),
"C21":("proved","Exact characterisation; partition dependence exhibited."),
"C22":("proved",""),"C23":("proved",""),
"C24":("proved","Linear with Dirichlet data; characterised and refuted for pure Neumann problems."),
"C25":("proved",""),"C26":("proved",""),
"C27":("proved","Content never stale; layout and quadratures can be (refuted)."),
"C28":("proved",""),"C29":("proved",""),
"C50":("proved",""),"C53":("proved",""),"C54":("proved","GMRES convergence is not modelled: the hypothesis is an exact solution."),
})
notes.update({
"C30":("proved",""),"C31":("proved",""),"C32":("proved",""),
"C33":("proved","The root box is built from nodes only: that it contains the quadrature points is a hypothesis."),
"C34":("proved","Refuted in general (1 cell, 4 points, 1 level: 5 blocks, 4 slots); exact bound and sufficient condition proved."),
"C35":("proved",""),
"C36":("proved","Expected claim refuted; exact multiplicities proved."),
"C37":("proved","For every content left in dof_to_elems by earlier calls."),
"C38":("proved",""),"C39":("proved",""),
"C40":("proved","Translations are arbitrary linear maps here; their exactness is C07-C09."),
"C41":("proved",""),"C42":("proved",""),
"C51":("proved","CopyContent onto a block with nodes concatenates (refutation included)."),
"C52":("proved","Same mesh: no effect. Other mesh: refuted, with completeness preserved."),
})
notes.update({
"C43":("proved","Expected transparency refuted; exact characterisation. Negative zero and non-finite coordinates are not modelled."),
"C44":("proved",""),
"C45":("proved","deal.II's refinement is an arbitrary function; termination of the conformity loop is not claimed."),
"C46":("proved","Distinctness refuted above ten surfaces; iff proved."),
"C55":("proved",""),
})
notes.update({
"C13":("proved","Agreement of the overloads refuted in 3D (sign); doubles are reals."),
"C14":("proved","Correctness of 3D hypersingular refuted on the diagonal; exact iff proved."),
})
notes.update({
"C11":("proved","All 462 bodies are transcribed by a generator script (tools/leg/gen.py); doubles are reals."),
"C12":("proved","The derivative accessor divides by zero at the poles for m=1 (finding, proved)."),
})
notes.update({
"C05":("proved","Histories as an inductive reachability predicate; operands reachable too. Add(real,imag) is a refutation of the original claim."),
"C06":("proved","Exact arithmetic; None = undefined behaviour, both orders undefined together."),
"C07":("proved","Addition theorem for solid harmonics proved from scratch (T_add). The 1e-7 shortcut is refuted as exact."),
"C08":("proved","Arbitrary coefficients; the imaginary parts of order-0 coefficients are ignored by both sides."),
"C09":("proved","Uses the table derivative theorem C12; branch cut of atan2 avoided by working with (x-iy)/r."),
})
notes.update({
"C47":("proved","All four statements over the closed square; exact arithmetic."),
"C48":("proved","Assumes the deal.II contract normal * JxW = X_u x X_v (SpecSing surf); quadrature error not modelled."),
"C49":("proved","jacobian and jacobian_grad taken from the deal.II documentation."),
"C56":("proved","Integrability of the integrand away from the singular point is a hypothesis (it holds for continuous integrands); quadrature replaced by exact integrals."),
})
notes.update({"C57":("proved","Newton expansion with explicit tail by Bonnet recurrence and the ODE of the generating function; norms of solid harmonics by Cauchy-Schwarz; dipoles by differentiating the remainder. Covers every history of the class's operations (multipole_of)."),
"C58":("proved","Double series of the M2L conversion; norm of the product of solid harmonics (Vandermonde); square truncation bounded by (p+1) times the tail. Covers every history (local_of). Order > 10 is undefined (finding: tables have 11 orders).")})
notes.update({"C25":("proved","also: in FMM mode compute_rhs accumulates onto the incoming vector (finding), harmless because solve_system clears it")})
notes.update({"C59":("proved","Composition of C37-C40 (each pair once, well separated) with C57/C58 (error of the expansions) through a simulation between the expansion objects and formal combinations of unit sources. Exact reals; singular-cell quadrature is an arbitrary function shared by both sides.")})
notes.update({"C60":("proved","Findings: FMM ignores the 'Quadrature type' parameter; in 3D the two modes use different singular rules. Exact reals."),
"C61":("proved","FEValues data are parameters; hanging-node constraints as homogeneous combinations (deal.II distribute_local_to_global contract); the linear solve is taken as exact. Unisolvence and positive JxW are hypotheses where stated.")})
notes.update({"C62":("proved","Exact reals, NaN as None; dim 3 (2D: C only). Findings: re-entrant corners, opposite faces, integer division in 2D."),
"C63":("proved","The per-cell integral (C56) is a parameter. Finding: b_i accumulates over solves without reinit."),
"C64":("proved","V and W singular integrals (C48, C49) are parameters; matrix inversion by cofactors; the renumbering of vector dofs is not modelled here.")})
notes.update({"C65":("proved","The linear solver is not modelled (exact solution of the system it is given); AffineConstraints::close by its contract. Finding: hanging nodes between Dirichlet and Neumann parents mix flux and potential (C65_mixed_hanging_refuted)."),
"C66":("proved","Finding: the pure Neumann operator adds the norm of the residual to the equation; compatible problems become unsolvable."),
"C67":("proved","Residual bound, and distance of the solutions given a stability constant of the Direct problem (the constant itself is a hypothesis, shown to hold in an example); same singular rules in both modes, see C60 for the difference of the rules. Exact reals.")})
notes.update({"C30":("proved","Holds for an arbitrary rounding function of the coordinate arithmetic."),
"C31":("proved","Holds for an arbitrary rounding function of the coordinate arithmetic."),
"C33":("proved","_rounded: any rounding with bounded error (fixed-point example given). The root box is built from nodes only: that it contains the quadrature points is a hypothesis."),
"C37":("proved","Holds for an arbitrary rounding function of the coordinate arithmetic."),
"C39":("proved","_rounded: any rounding with bounded error.")})
notes.update({"C68":("proved","Threads as interleaved reads/writes with torn non-word writes; WorkStream with any number of reused copy buffers and serialised copiers; TBB, Trilinos internals and timers not modelled."),
"C69":("proved","Progress + well-founded steps + race freedom outside the static table; race on the table proved to occur (refutes full race freedom), and shown harmful if its words were torn."),
"C70":("proved","The values are tied to ModelBem.prec_row (C17); concurrent SparseMatrix::set/add on distinct entries are taken as independent writes.")})
notes.update({"C71":("proved","Reworded after refuting 'every process owns an unknown': C71_every_process_owns_refuted, exact characterisation C71_owns_nothing_iff/C71_touch_first_iff."),
"C72":("proved","Reworded after refuting that the printed potential maximum is the nodal maximum: C72_phi_max_is_nodal_refuted, what it is instead: C72_phi_max_is_cellwise, C72_phi_max_below_l2.")})

notes.update({"C73":("proved","No overflow in the binary64 model (Flocq FLT format); rounding bound for the near field (assembly and product), not for the expansions; C73_child_order_changes_bits_refuted refutes run-to-run reproducibility.")})
notes.update({"C74":("proved","Events of one process = writes of single entries and calls on whole objects, in program order (ModelColl); library bookkeeping (last_action, undelivered entries) modelled from the deal.II/Trilinos documentation: an assumption listed in DESIGN.md. Any history of public calls. Solver iteration counts equal on all processes by assumption (decided from global norms). Finding: a process without nodes has undefined behaviour in solve_system (bem_problem.cc:1820-1822), proved to be the exact condition.")})
notes.update({"C75":("proved","Statement is about any vector with a finite residual, so it covers whatever GMRES returns. Library contract used: AffineConstraints::close leaves lines that refer to unconstrained dofs only, and SolverGMRES(AdditionalData(100)) tests the preconditioned residual (left preconditioning, default residual). 'The tolerance bounds the residual' is refuted (C75_tolerance_bounds_the_residual_refuted). The pure Neumann operator is not linear and is not covered here (C66).")})
notes.update({"C76":("proved","Reworded after refuting full invariance: C76_mixed_hanging_nodes_refuted, C76_double_nodes_refuted, C76_lists_depend_on_the_unit_refuted, C76_lists_depend_on_the_place_refuted, 2D logarithm (C76_dirichlet_matrix_in_the_plane, C76_single_layer_in_the_plane). C76_solution_in_other_units takes the operators, normals and surface gradients of the moved system as in C76_products_in_other_units and C76_projected_fields_turn_with_the_mesh. Exact real arithmetic except for the tree, which holds for every rounding that commutes with the factor.")})
notes.update({"C77":("proved","Counts pairs of blocks visited by the loops, not floating point operations or time. Reworded after refuting the unconditional bound (C77_small_meshes_pair_all_leaves_refuted, C77_long_cells_pair_all_their_leaves_refuted).")})
notes.update({"C78":("proved","Inputs: the two principal curvatures at the projected centre (OpenCASCADE is not modelled). Reworded after refuting 'cells without a surface are never refined' (C78_cells_without_surface_never_refined_refuted). The refinement loop itself is that of C45.")})
notes.update({"C79":("proved","Kernel, shape and JxW values are inputs here (their own rounding: C80). Underflow is covered (e), overflow is not. Bitwise equality of products across distributions is refuted (C79_column_order_changes_bits_refuted).")})
notes.update({"C80":("proved","Relative model of rounding: no underflow, no overflow; C80_double_precision shows binary64 agrees with it for results of size at least 2^-1022. Points, normals, shape values and JxW are given numbers (their computation in deal.II is not modelled). The 2D logarithm is assumed to have relative error u like the other operations (u is then the error of the C library).")})
notes.update({"C81":("proved","Exact real arithmetic for the statements about the linear system; the rows are compared in any arithmetic. Direct method.")})
notes.update({"C82":("proved","Exact arithmetic, exact solutions of the linear systems (not GMRES iterates, see C75). The nodal normals and the surface gradients of the data are functions of the node (not recomputed from the mesh). Reworded after refuting the unconditional claim (C82_mixed_node_refuted, C82_vertex_refuted). Direct method; FMM solutions are within C67's bound of these.")})
notes.update({"C83":("proved","Position vectors, numberings and hanging-node relations of the successive meshes are inputs (deal.II's get_position_vector and refinement are not modelled). Reworded after refuting 'the spheroid is used in every cycle' (C83_spheroid_in_every_cycle_refuted).")})
notes.update({"C84":("proved","Exact arithmetic and exact solutions of the linear systems; FEValues data are inputs. The conversion to graphics files by DataOut is not modelled: the statement is about the vectors handed to it. Reworded after refuting 'phi_surf_gradient is the surface gradient of phi' (C84_surface_gradient_of_phi_refuted). Direct method.")})
notes.update({"C85":("proved","Exact arithmetic (the octree part: any rounding that depends on the number only), exact solutions of the linear systems, first solve. General position as in C59. Reworded after refuting independence on later cycles (C85_leftovers_of_earlier_cycles_refuted).")})
notes.update({"C45":("proved","deal.II's refinement is an arbitrary function, except in C45_a_halved_face_is_restored (a vertex appears in the middle of every flagged face); termination of the conformity loop is not claimed."),"C67":("proved","Residual bound, and distance of the solutions given a stability constant of the Direct problem (the constant itself is a hypothesis, shown to hold in an example), per system and for whole runs on any numbers of processes (C67_runs_of_the_two_methods); same singular rules in both modes, see C60 for the difference of the rules. Exact reals.")})
notes.update({"C86":("proved","The library code for splitting, matching and converting text (deal.II Utilities and Patterns, std::istream) is modelled from its documentation; ASCII, C locale. Text of single entries, not the layout of the file. Reworded after refuting that accepted numbers are used as written.")})
notes.update({"C87":("proved","deal.II's numbering functions are modelled as in C71 (association of dofs with subdomains, subdomain-wise numbering); what Trilinos does with index sets that leave indices unowned is not modelled. Reworded after refuting that a node gets its own normal (C87_normal_of_the_node_refuted).")})
notes.update({"C88":("proved","The answer of a cycle is an arbitrary function of its mesh and of the data that survives; that all other members are rebuilt before they are read was checked by reading (cited in ModelHistory), not proved. Reworded after refuting history independence with a spheroid, with redistributed unknowns and in FMM mode (C88_spheroid_refuted, C88_layout_refuted, C88_fast_refuted).")})
notes.update({"C89":("proved","Direct mode, relative rounding errors without overflow or underflow (C80_double_precision); the inhomogeneities of the constraints and the imposed data are taken as given numbers; GMRES itself is not modelled: eps is how well the computed system holds for the vector it returns. Reworded after refuting that constraints are kept to the precision of their unknowns.")})
notes.update({"C90":("proved","One process only; exact reals; the class is not included by any file (it has the include guard of constrained_matrix.h). Reworded after refuting that a call is a product (C90_is_a_product_refuted) and that the numbering of dofs does not matter (C90_any_order_refuted).")})
notes.update({"C91":("proved","Unlimited exponents: no overflow or underflow. Rounding errors of the coefficients are not bounded (only finiteness, and agreement with the exact model when nothing is rounded). NaN and infinities are represented by None (they never become finite again in these routines). Reworded after refuting that the computed dipole moments are finite whenever the exact ones are (C91_exact_but_not_computed).")})
notes.update({"C92":("proved","The calls are arbitrary functions that return or throw. atoi from the ISO C text (undefined outside int); what MPI_InitFinalize does with the limit, and the destructors that run when the try block is left (MPI_Finalize), are the library's. Each process on its own: that one process fails while others wait is C74's subject.")})
notes.update({"C93":("proved","Unlimited exponents. None stands for an expansion with a coefficient that is not finite; the value read from it is an arbitrary number, so the theorems say which expansions are not finite, not what the processor prints.")})
notes.update({"C94":("proved","The Legendre values, powers, sines and cosines are taken as the program computes them; the dipoles (AddNormDer) have no bound. The bound is relative to the sum of the absolute values of the terms, as usual for sums with cancellation.")})
notes.update({"C95":("proved","The bounds are upper bounds: what they leave out is how much smaller the true error is. The derivatives of order 1 divide by sqrt(1-x^2) and have no bound.")})
notes.update({"C94":("proved","The Legendre values, powers, sines and cosines are taken as the program computes them (C95 bounds the Legendre values); the dipoles (AddNormDer) have no bound. The bound is relative to the sum of the absolute values of the terms, as usual for sums with cancellation.")})
notes.update({"C94":("proved","The Legendre values (bounded in C95), powers, sines and cosines, and the sine of the polar angle sqrt(1-c^2), are taken as the program computes them. The bound is relative to the sum of the absolute values of the terms, as usual for sums with cancellation.")})
