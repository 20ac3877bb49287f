# DESIGN — a Rocq model of DG-MPI

## Approach
The C++ functions are transcribed, one definition per function or loop, into total Gallina functions.
Each definition cites the file and lines it models, and says where it simplifies. C++ integers are Z;
tables whose indices come from data are lists with bounds-checked reads and writes in an error monad
(`res`: out-of-bounds, uninitialised use, thrown exception, null pointer, bad arithmetic are distinct
failures, never a default value). Views of numbers in the numeric kernels are functions of their indices;
where an index comes from a table the access is checked against the extents. `rtype` is the real
numbers, except where rounding decides the property (C27, C66: Flocq binary64). Kokkos parallel loops take
the order of their iterations as an argument (any permutation) and, where iterations could race, the theorem shows
that the result does not depend on it. Content of uninitialised memory is an argument (`junk`, `...0`).

External libraries are modelled by their contracts: METIS is an arbitrary assignment of elements to partitions,
iteration over a hash set an arbitrary permutation, MPI point-to-point messages are delivered in order per (source,
destination, tag) at any time after the send, a barrier opens when all ranks have arrived, allreduce and
exscan give sums, HDF5 datasets are arrays of which hyperslabs are copied, KokkosBlas/KokkosBatched
kernels are the loops of their unblocked reference versions. For C81 and C82 the team kernels are modelled with single
memory accesses (TeamModel.v): a team barrier opens when all threads of the team have arrived; TeamThreadRange gives
every iteration to one thread of the team and has no barrier; TeamGemm sets (beta = 0) or keeps (beta = 1) the result, has a
barrier after the former, then adds one dot product per entry (TeamThreadRange over the entries) without a barrier at its end; TeamScale is
a TeamThreadRange over the entries without a barrier; views are zero when constructed; a kernel starts when the one before it has
finished. Memory is sequentially consistent.

Properties that are false of the code are kept as stated; the theorem with the suffix `_refuted` proves the
negation by a witness, and a `_partial` theorem says exactly when the property does hold.

### Files
Model files cite the code: Base (error monad, checked arrays), RBase (loops and sums over R), MeshModel, ReadModel,
CommModel, LinAlgModel, QuadTables, QuadModel, BasisModel, ShapeModel, PhysModel, SolverModel, SetupModel, StepModel,
TimeModel, UtilModel, SizeModel, IOModel, PostModel, TeamModel, TeamKernels, TeamNormals, TeamPhases, TeamSetup, TeamStep, AsyncModel, ProgramModel. Specification vocabulary, independent of the model's helpers: MeshSpec,
CommSpec, PhysSpec, SolverSpec, SetupSpec and the definitions at the head of each Prop file. Proof files: *Proof*, Comm*,
Solver*, Setup*. Theorems: Prop*.v, each followed by Print Assumptions and by an Example meeting its hypotheses.

## Trusted base
1. Coq 8.16.1's kernel (and coqchk, which vcheck runs); no plugins, no extraction. `vm_compute` is used in
   a few proofs (quadrature tables, concrete examples), so the kernel's virtual machine is included.
2. Axioms, as listed by `Print Assumptions` (table below); all come from Coq's standard library:
   F = ClassicalDedekindReals.sig_forall_dec, N = ClassicalDedekindReals.sig_not_dec (the real numbers),
   E = FunctionalExtensionality.functional_extensionality_dep, C = Classical_Prop.classic (through Reals, Coquelicot and Flocq lemmas).
   No axiom is added here; no functors, module types, Variables or Hypotheses outside sections.
3. That the transcription is faithful: every definition cites its source lines so that this can be read off. The table
   of quadrature nodes (QuadTables.v) was generated from src/numerics/quadrature/segment.cpp by a script; its
   entries are the decimal literals of that file.
4. The contracts of MPI, METIS, HDF5, Kokkos and toml11 stated above.

## What is modelled, what is not
| code | modelled | not modelled |
|---|---|---|
| mesh/mesh.cpp | read_mesh, partition, ID look-ups, the print at the end of partition | report, copies between host and device, finalize (memory) |
| mesh/tools.cpp | all | |
| memory/memory_network.cpp | communicate_face_solution, print, barrier, allreduce (as a sum) | MPI/Kokkos start-up, print_view overloads (same control flow as print; debugging) |
| math/linear_algebra.cpp | all kernels used by the solver, invA for every size, det, identity | |
| numerics/quadrature | segment, quadrilateral, hexahedron rules, number of points, orders | |
| numerics/nodes.cpp | equidistant nodes | Gauss-Lobatto node tables (no accepted basis reaches them, C67) |
| numerics/basis | Basis values and gradients for the six tensor bases, shape.cpp point/node/orientation tables, tools.cpp geometry and mass matrices | triangle/tetrahedron branches (not implemented in the code) |
| numerics/numerics_data.cpp | basis names, numbers of coefficients and points | toml look-ups |
| numerics/timestepping | FE, RK4 | |
| physics | Euler pressure, wave speed, interior flux, Lax-Friedrichs, HLLC, all initial conditions and exact solutions | the species/transport members that nothing calls |
| solver | set-up helpers, initial projection, residual (volume, face, exchange), quadrature look-up, flux functors, restart, time loop | timers, printing, gradients passed to the flux and ignored by it |
| io | HDF5Wrapper datasets and attributes, writer, reader, converter | input_info.cpp, io_params.cpp (parsing of settings), HDF5 error texts |
| post/main.cpp | get_error | report formatting |
| utils, common/enums.h | file names, command line, common element test, enum names | check_input_file, directory creation, timers |

Rounding errors of the floating-point kernels, performance, GPU memory spaces (except C15) and integer overflow beyond what
the comments say (32-bit casts in IO and time stepping are modelled) are outside the model.

## Testing the theorems
seeded/LOG.jsonl records edits of the model that mimic realistic bugs, the theorems that then fail, and theorems that
were added or tightened because an edit went unnoticed.

## Plan and result per property
- **C01 Every element is owned by exactly one rank** — MeshModel.v models partition() as an imperative program over bounds-checked arrays; MeshProof.v proves loop invariants giving closed forms (filters of the global ID range); ownership follows. Status: proved (`C01_element_ownership`). All meshes, rank counts, assignments.
- **C02 Global/local ID lookups are inverse to each other** — search_for_local_ID as a first-match search returning UINT_MAX; tables are duplicate free, so lookups invert. Status: proved (`C02_id_lookups_inverse`).
- **C03 Local connectivity describes the same elements as the global mesh** — std::set as a sorted duplicate-free list; position in the list = std::distance; composition lemma. Status: proved (`C03_local_connectivity`).
- **C04 An interior face is stored on exactly the ranks of its two elements** — closed form of the face table; membership characterised by owner ranks. Status: proved (`C04_interior_faces`).
- **C05 Partitioning never touches memory out of bounds** — every array access of the model returns an error when out of range or uninitialised; theorem: the run returns Ok. Status: proved (`C05_partition_in_bounds`, `C05_partitioned_exists`). Excludes the diagnostic print, which is C08.
- **C06 Neighbour ranks are symmetric and exact** — hash set iteration order = arbitrary permutation (oracle); exactness and symmetry of the set contents. Status: proved (`C06_neighbor_ranks`).
- **C07 Both sides of a rank boundary list the same faces in the same order** — ghost lists = filter of the global face order by rank pair, on both sides. Status: proved (`C07_ghost_lists_agree`).
- **C08 The diagnostic print at the end of partitioning stays inside the face table** — the print loop is a separate function with checked reads; refuted, with exact condition. Status: partial (`C08_check_view_partial`, `C08_check_view_refuted`). False of the code: partition() completes iff the rank has at least three faces; witness with two faces.
- **C09 Any requested number of partitions is handled** — partition model takes the two counts separately; refuted with a witness, plus exact condition for the count loops. Status: partial (`C09_num_partitions_refuted`, `C09_num_partitions_key`, `C09_more_partitions_refuted`). False of the code when npartitions differs from the number of ranks: with fewer, the ranks without a partition read out of bounds; with more, on every mesh either every rank reads out of bounds or the elements of the surplus partitions are on no rank.
- **C10 The element-to-face table read from the file is the inverse of the face-to-element table** — read_mesh reverse map as a checked imperative loop; proved for meshes without self faces, refuted for a self-periodic face. Status: partial (`C10_reverse_face_table_partial`, `C10_reverse_face_table_refuted`). True without self faces, false with one (one-cell periodic mesh).
- **C11 Boundary faces get consecutive numbers and correct reverse references** — boundary group loop as a checked imperative loop. Status: proved (`C11_boundary_groups`).
- **C12 The face exchange delivers the neighbour's values** — transition system over all ranks: per-(src,dst) FIFO channels, blocking receive, barrier; invariant over all reachable states. Status: proved (`C12_exchange_delivers`, `C12_single_exchange`). Every partitioned mesh (the tables the model of Mesh::partition builds), every number of exchanges, every schedule of ranks and message copies; host memory.
- **C13 The face exchange never deadlocks and always finishes** — progress lemma + decreasing measure on the same transition system. Status: proved (`C13_exchange_terminates`). No crash, no deadlock, explicit bound on the length of every execution, completion from every reachable state, no message left over.
- **C14 Consecutive exchanges do not mix** — same system with many rounds and messages that still point into the send buffer until the network copies them. Status: proved (`C14_rounds_do_not_mix`). Contents of every message in flight and of every filled receive buffer, in every reachable state of any number of consecutive exchanges.
- **C15 Send buffers stay alive until the message is received (device build)** — variant in which the sent buffer is a temporary freed at the end of the loop body; refuted. Status: partial (`C15_device_send_buffer_refuted`). The property is false of the code: a schedule that reads a destroyed host copy is exhibited. (C13/C14 give the property for host memory.)
- **C16 Ranks print in rank order** — barrier transition system for print; invariant. Status: proved (`C16_print_in_rank_order`). Output is always a prefix of header, blocks 0..n-1, footer; complete at the end; never stuck.
- **C17 Quadrilateral face point order** — functions on indices; permutation and geometric identity over R. Status: proved (`C17_quad_face_point_order`). both orientations, all faces, any symmetric points; unknown orientations leave the order untouched
- **C18 Hexahedron face point order** — functions on indices; permutation and geometric identity over R. Status: proved (`C18_hex_face_point_order`). all 8 orientations, all 6 faces, any number of points per direction
- **C19 Face points of an oriented face are on that face** — over R. Status: proved (`C19_quad_points_on_face`, `C19_hex_points_on_face`). position, range, corner order and outward orientation of the parametrisation
- **C20 Local nodes on a face** — over Z, proved for every order. Status: proved (`C20_quad_local_nodes`, `C20_hex_local_nodes`). every geometric order >= 1; exactly the nodes on the face, in face-point order
- **C21 Face normals of a straight-sided quadrilateral point outward and close up** — over R, linear elements. Status: proved (`C21_straight_quad_normals`, `C21_curved_quad_normals`). straight sides as stated, plus: for any geometric order the stored normal is the perpendicular of the curve the element map traces
- **C22 Face normals of a hexahedron are evaluated at the face quadrature points** — over R; refuted in general, proved for parallelogram faces. Status: partial (`C22_hex_normals_partial`, `C22_hex_normals_refuted`). False of the code: the normal is evaluated at the point with the two face coordinates exchanged (exact characterisation proved, any order); correct for parallelogram faces; counterexample with a bilinear face
- **C23 Face residual storage is race free** — slot index injectivity from mesh well-formedness. Status: proved (`C23_face_flux_slots`). race freedom, opposite signs, untouched remainder, and the gather reading the same slots; every order of the parallel loop
- **C24 The face terms conserve every state variable** — finite sums over faces. Status: proved (`C24_face_terms_cancel`, `C24_residual_conserves`). for any fluxes that agree on the ranks of a face; and for the whole residual when the normals of both ranks agree (true for straight faces; see C60)
- **C25 Time steppers implement forward Euler and classical RK4** — steppers over an arbitrary function R on a module over R. Status: proved (`C25_forward_euler`, `C25_runge_kutta`, `C25_time_advances`, `C25_counter_wraps_refuted`). Any residual function, layout and loop order; stage states and stage times of every residual call; fewer than 2^32 entries per rank (with 2^32 entries the 32-bit counter wraps and the step changes nothing: C25_counter_wraps_refuted).
- **C26 RK4 is fourth-order on linear problems** — same, linear operator on R^n or abstract. Status: proved (`C26_taylor`). Any linear operator; follows from C25.
- **C27 The solver takes the number of steps that reaches the final time** — IEEE binary64 division and truncation with Flocq. Status: proved (`C27_exact_multiple`). IEEE binary64 division and truncation (Flocq).
- **C28 Small matrix inversion** — over R, field. Status: proved (`C28_small_inverse`). Two-sided inverse for sizes 1, 2, 3 and the determinant; nothing outside the block written.
- **C29 Identity fills a matrix with the identity** — refuted for non-zero off-diagonals; proved for zeroed input. Status: partial (`C29_identity_partial`, `C29_identity_of_zeroed_partial`, `C29_identity_refuted`). False of the code: identity only writes the diagonal; exact effect proved, and the consequence for invA.
- **C30 Vector and matrix kernels** — over R, finite sums. Status: proved (`C30_dot`, `C30_cross`, `C30_vector_kernels`, `C30_matrix_kernels`). Library kernels (KokkosBlas, KokkosBatched) modelled by their unblocked loops.
- **C31 Lagrange basis is nodal and sums to one** — over R; interpolation uniqueness by polynomial root counting. Status: proved (`C31_lagrange_values`). any distinct nodes, any number of nodes; nodal, partition of unity, reproduces every polynomial up to degree n-1, other entries unchanged
- **C32 Lagrange gradients are the derivatives of the values** — Coquelicot is_derive of the value routine. Status: proved (`C32_lagrange_gradients`). gradient routine is the derivative (Coquelicot is_derive) of the value routine; gradients sum to zero
- **C33 Tensor-product bases** — index bijection + products. Status: proved (`C33_basis_values`, `C33_basis_gradients`, `C33_lagrange_nodal`). all six bases through Basis::get_values/get_grads, including order 0; nodal at the nodes of nodes.cpp; Legendre up to order 7 (see C35)
- **C34 Legendre basis** — closed forms vs recurrence; orthogonality through exact polynomial integration. Status: proved (`C34_legendre`). recurrence, orthogonality with norms 2/(2i+1), gradients are derivatives, for every order the tables provide (0..7)
- **C35 Every accepted Legendre order is evaluated completely** — model returns the set of written slots; refuted for p>7. Status: partial (`C35_legendre_complete_partial`, `C35_order_above_7_refuted`). holds up to order 7; false of the code for every order above 7: only a message is printed and entries 7..p keep the previous contents
- **C36 Gauss-Legendre tables** — tables transcribed as rationals; vm_compute checked moments lifted to all polynomials. Status: partial (`C36_gl_rules_partial`, `C36_order_36_37_refuted`). Proved for every order 0..49 except 36 and 37 and every polynomial; false of the code for 36 and 37: node 15 of the 19-point rule is never assigned (node 16 is assigned twice), integral of t^2 off by more than 0.06.
- **C37 Every accepted quadrature order is tabulated** — refuted above the table limit, exact limit proved. Status: partial (`C37_orders_tabulated_partial`, `C37_orders_beyond_table_refuted`, `C36_order_36_37_refuted`). True for solution orders 0..23 except 17; false of the code for 17 and for every order from 24 on (nothing assigned, all quadrature sums zero).
- **C38 Tensor quadrature** — finite sums. Status: proved (`C38_quadrilateral_rule`, `C38_hexahedron_rule`, `C38_quadrilateral_exactness`, `C38_hexahedron_exactness`). Any 1D rule; plus exactness of the tabulated quadrilateral and hexahedral rules on polynomials.
- **C39 Equidistant nodes** — over R/Q. Status: proved (`C39_equidistant_segment`, `C39_equidistant_tensor`). Exact real arithmetic.
- **C40 Parallel dataset round trip** — file as a list; write = concatenation at exclusive-scan offsets; read by offset. Status: proved (`C40_parallel_round_trip`, `C40_serial_round_trip`). Any number of ranks, any shapes of the same rank >= 1, any arrival order of the writes; hsize_t unbounded.
- **C41 Rank-count mismatch is rejected** — decision function. Status: proved (`C41_rank_mismatch_refused`, `C41_reader_refuses`). Every rank of the mismatching read fails; the Reader constructor fails on the head rank.
- **C42 Restart coefficients round trip** — index formulas for both layouts. Status: proved (`C42_restart_round_trip`). Both layouts; at most 2^32 coefficients per rank, since the code indexes the buffer with 32-bit unsigned arithmetic.
- **C43 Restart restores the time** — state model; refuted. Status: partial (`C43_restart_time_refuted`). The property is false of the code: read_in_coefficients reads the stored time and drops it; proved as a refutation for every run.
- **C44 Serialising a parallel solution puts every element at its global position** — serialisation loops as checked imperative code. Status: partial (`C44_converted_solution`, `C44_single_rank`, `C44_column_major_refuted`). Proved for row-major files on any number of ranks, and for either layout on one rank (sizes below MPI's int limit). Refuted for column-major files: the sorting ignores the stored layout.
- **C45 Common-element test** — two-pointer loop; induction. Status: proved (`C45_common_element`). All sorted integer ranges.
- **C46 Output file names identify the iteration** — decimal rendering of numbers, injectivity. Status: proved (`C46_file_names_distinct`). All prefixes, suffixes and iteration numbers, including negative ones and more than 8 digits.
- **C47 Command-line options** — argument lists; refuted for a trailing -input. Status: partial (`C47_options`, `C47_input_file_partial`, `C47_missing_value_refuted`). The two helper functions are as stated; false of the programs: a trailing -input makes main construct a string from a null pointer.
- **C48 Enum names round trip** — string tables transcribed. Status: proved (`C48_enum_round_trip`). All 11 enumerations, all strings.
- **C49 Lax-Friedrichs flux** — over R. Status: proved (`C49_lax_friedrichs`). closed form of the flux, consistency, antisymmetry, homogeneity; 2D and 3D; independent of prior contents of work and output arrays
- **C50 HLLC flux consistency** — over R. Status: proved (`C50_hllc_consistent`). 2D and 3D
- **C51 HLLC always selects a flux** — over R. Status: proved (`C51_hllc_total`, `C51_contact_wave`). no failed division, square root or assertion; the result is the textbook HLLC flux, and the contact wave satisfies Rankine-Hugoniot
- **C52 HLLC is conservative under exchange of sides** — over R; refuted when both states run into the face at or above sound speed, proved otherwise. Status: partial (`C52_hllc_exchange_partial`, `C52_hllc_exchange_refuted`). Holds unless both states run into the face at or above their sound speed; in that case false (both orders return their own left flux)
- **C53 HLLC keeps stationary contacts** — over R. Status: proved (`C53_hllc_contact`).
- **C54 Euler state functions** — over R. Status: proved (`C54_euler_state`, `C54_primitive_state`). 2D and 3D
- **C55 Isentropic vortex initial condition** — over R with Rpower. Status: proved (`C55_isentropic_vortex`, `C55_gas_constant`). requires gas constant 1 (the code asserts it)
- **C56 L2 projection reproduces polynomials** — finite sums over R. Status: proved (`C56_projection`). any basis, quadrature and order of the loop
- **C57 Volume and face integrals are linear and complete** — finite sums over R, checked loops. Status: proved (`C57_integral_kernels`, `C57_element_term`). kernels, and the whole element term of the residual
- **C58 Basis and quadrature sizes agree** — arithmetic. Status: proved (`C58_sizes_agree`, `C58_solution_file_sizes`, `C58_inverse_mass_size`, `C58_point_counts`, `C58_every_element`, `C58_plots_every_element`). C58_every_element and C58_plots_every_element cover every basis name, triangles included. Every order and geometric order for the five bases both parts of the code know (for the other names see C67).
- **C59 Inversion of larger matrices** — LU without pivoting as loops over function arrays; Schur complements stay positive definite, so no pivot vanishes. Status: proved (`C59_spd_inverse`, `C59_lu_right_inverse`, `C59_no_pivoting_refuted`). Any size; plus: right inverse for every matrix whose pivots do not vanish, and a regular matrix on which the pivot-free factorisation breaks down.
- **C60 Face normals belong to the points the states are taken at** — normals and states as functions of the reference point; refuted for curved edges, proved for orientation 0 and straight edges. Status: partial (`C60_normal_at_state_point_partial`, `C60_curved_normals_refuted`). Holds for orientation 0 and straight edges; false for curved edges: two ranks store different normals for the same point
- **C61 Both sides of a face evaluate their states at the same physical points** — element maps traced on both sides of a face; equality of the traced curves from agreement of the face nodes. Status: proved (`C61_quad_states_coincide`, `C61_hex_states_coincide`). any geometric order, any faces, 2 and 8 orientations
- **C62 The vortex used for error norms solves the Euler equations** — partial derivatives with Coquelicot, chain rule along lines. Status: proved (`C62_vortex_exact`). 2D; partial derivatives in the sense of Coquelicot's is_derive
- **C63 Initial conditions give admissible gas states** — each initial condition separately; refuted for two of them. Status: partial (`C63_uniform_partial`, `C63_vortex3_partial`, `C55_isentropic_vortex`, `C63_initial_states_refuted`). True for Uniform and IsentropicVortex; false for Sphere (negative pressure everywhere), Gaussian (vacuum on an axis) and the dimension/name combinations that leave the state unset
- **C64 Residual evaluation on any number of ranks sees the right traces** — composition of the partition (C01-C07), exchange (C12) and gather (C23) models. Status: proved (`C64_evaluates`, `C64_residual_well_defined`). all ranks, using the exchange of C12
- **C65 Mass, momentum and energy are conserved by the time stepping** — induction over steps; the residual sums to zero (C24), the inverse mass matrix turns it into the change of the integral. Status: proved (`C65_integrals_conserved`). Any number of FE/RK4 steps in any mix, all ranks, all schedules; mass matrix inverse and agreement of the normals on shared faces as hypotheses (C28/C59; C71 and C87 discharge them from the set-up code, for quadrilaterals and for hexahedra whose shared faces are parallelograms).
- **C66 Decimal step and end time in the input file** — Flocq: nearest doubles of decimal inputs; refuted by computation in the kernel, n or n-1 steps proved in general. Status: partial (`C66_rounded_multiple_partial`, `C66_decimal_refuted`). False of the code: 0.3/0.1 gives 2 steps. Proved: the number of steps is always n or n - 1.
- **C67 A basis name accepted in the input file works** — both switch statements transcribed. Status: partial (`C67_accepted_bases_partial`, `C67_accepted_bases_refuted`). False of the code: the GLL, GL and triangle names pass the numerics parameters, then the Basis constructor calls an unset function pointer; LegendreSeg is rejected by the numerics parameters although the Basis class implements it. Proved: exactly the five names of the segment, quadrilateral and hexahedron bases work throughout.
- **C68 Geometric tables of every rank describe its elements** — SetupModel.v transcribes the helpers; loops over elements in any order, scratch content arbitrary; C33, C28, C36 supply the kernels. Status: proved (`C68_setup_geometry`). Quadrilaterals and hexahedra, geometric order 1 or higher, orders 0 to 11 (larger orders need rules beyond the tabulated ones), exact real arithmetic.
- **C69 Stored inverse mass matrices invert the elements' mass matrices** — unisolvence of the tensor rule makes every mass matrix positive definite; then C59. Status: proved (`C69_inverse_mass_matrices`). As C68; the Gram matrix is taken under the quadrature rule the code uses, which is what C24/C65 need.
- **C70 Ranks set up compatible tables** — all ranks compute the same reference tables; relation proved field by field. Status: proved (`C70_setup_consistent`). As C68.
- **C71 Conservation from the mesh file to the end of the run** — C68-C70 discharge the hypotheses of C65; straight sides make both ranks' normals agree (C21). Status: proved (`C71_conservation_from_mesh`, `C71_conservation_hexahedra`). Straight-sided quadrilaterals, and hexahedra whose interior faces are parallelograms (geometric order 1); the code gives boundary faces no flux. For other hexahedra the ranks store different normals for a shared face (C83).
- **C72 The mesh in memory is the mesh in the file** — ReadModel.v composes the read loops; closed form of every table. Status: proved (`C72_mesh_read`). Self faces included; elements with more than six face sides overflow the code's fixed tables and are excluded; boundary names distinct.
- **C73 The initial state is the projection of the initial condition** — normal equations from C69; minimality by Pythagoras; unisolvence for uniqueness. Status: proved (`C73_initial_state`, `C73_best_approximation`, `C73_uniform_state`). For order 0 the code uses different rules for the mass matrix and the right-hand side: C73_initial_state gives the equation that then holds. Initial conditions that leave the state unset (C63) do not qualify.
- **C74 The printed error is the distance to the exact solution, on any number of ranks** — rank contributions as sums over local elements, then a sum-over-ranks = sum-over-mesh lemma from C01. Status: proved (`C74_error_norm`, `C74_any_partition`, `C74_exact_at_start`). Reductions add over the reals (order immaterial); the exponent is 2, as in the program. The volume uses the rule of the order, the error the rule of twice the order, as in the code.
- **C75 Post-processing compares a stored solution with the exact solution at the stored time** — composition of the restart theorems C42, C43 with C74. Status: partial (`C75_post_time_refuted`). False: the solver's time is 0 after reading the file (C43), so the exact solution is taken at time 0; proved what is printed instead, and that it is wrong whenever the distances at the two times differ.
- **C76 Constructing a mesh splits it as METIS says** — composition of C72, C05 and C08 along the constructor. Status: proved (`C76_mesh_constructor`, `C76_requested_partitions`). For ranks with at least three faces; with fewer the construction reads past the face table (C08). The npartitions keys: C09.
- **C77 The residual is that of the discontinuous Galerkin scheme on the whole mesh** — DGSpec.v: the scheme on the whole mesh in mesh-file numbering. Exchanged traces by C12/C23, flux slots rearranged by interior face (finite sums over the slots), element term by C57; set-up data by C68, C70. Status: proved (`C77_residual_of_scheme`, `C77_residual_is_dg`, `C77_residual_is_dg_hexahedra`). C77_residual_of_scheme: any discretisation data the ranks agree on, quadrilaterals and hexahedra. C77_residual_is_dg(_hexahedra): straight-sided quadrilaterals, hexahedra with parallelogram interior faces, data from the solver's own set-up. Exact real arithmetic. Boundary faces contribute nothing, as in the code.
- **C78 The result does not depend on the partition or the number of ranks** — induction on the steps with C77 and the step programs (C49); uniqueness of inverse mass matrices (C69) and of the projection (C73). Status: proved (`C78_run_is_dg`, `C78_partition_independent`, `C78_whole_run_partition_independent`, `C78_run_is_dg_hexahedra`, `C78_partition_independent_hexahedra`, `C78_whole_run_hexahedra`). Exact real arithmetic: in floating point the residual sums round the same way on each element up to the order in which the parallel loops add.
- **C79 The converted solution file does not depend on the number of ranks** — C44 and C78; the file is a function of the mesh and the coefficients alone. Status: proved (`C79_converted_file`, `C79_same_file`, `C79_same_file_hexahedra`). Row-major builds (for column-major ones see C44). C79_converted_file: any element type and any solution held by the ranks. C79_same_file(_hexahedra): straight-sided quadrilaterals, hexahedra with parallelogram interior faces, exact real arithmetic.
- **C80 A uniform flow stays uniform (free-stream preservation)** — Discrete integration by parts with an explicit bound on the rule errors (PolySize.v): metric terms of a bilinear map times products of basis functions are polynomials the rules integrate; sides cancel by conformity. Counterexample at boundary edges. Status: partial (`C80_uniform_initial`, `C80_uniform_evaluates`, `C80_uniform_residual`, `C80_free_stream`, `C80_boundary_refuted`). Proved for elements with a neighbour on every edge (all elements of a periodic mesh), with an explicit bound. Refuted for elements at the boundary of the mesh: the solver adds no boundary face terms, so gas at rest in a box starts to move; C80_uniform_residual says what the residual is there. Straight-sided quadrilaterals, exact real arithmetic with the tabulated (rounded) rules.
- **C81 No data race in a residual evaluation: every thread schedule gives the same result** — TeamModel.v: threads interleave single loads and stores and meet at team barriers. A footprint discipline (between two barriers what a thread writes no other thread touches) gives a unique final memory and no deadlock (TeamProof.v); each kernel obeys it, and its sequential run is the function of SolverModel.v (TeamLaunch.v), so C81 follows from the accepted evaluation (C64). Status: proved (`C81_residual_any_schedule`, `C81_mass_any_schedule`). Sequentially consistent memory with indivisible loads and stores of one number; kernels of one execution-space instance run one after the other. The team matrix product follows KokkosBatched's unblocked TeamGemm.
- **C82 No data race in the computation of the face normals** — the face-normal kernel as thread programs on the machine of C81; one thread: deterministic; two threads: an explicit interleaving, for every face. Status: partial (`C82_normals_one_thread_partial`, `C82_quad_normals_race_refuted`, `C82_hex_normals_race_refuted`). Holds with one thread per team (the default of Kokkos' host back ends with AUTO may be more). Refuted with two: the team matrix product does not end with a barrier and get_normals_on_face has none, so a thread may read the other thread's entry of the tangent before it is computed (quadrilaterals: component 0 for every face), and every thread stores the cross product before the shared scaling by the sign (hexahedra: the sign of the face can be lost).
- **C83 All ranks agree on the normals of a shared face** — row lemma for the stored normals (SetupFaces) with the parallelogram clause of C22, both sides related by a reflection of the square; two concrete hexahedra for the refutation. Status: partial (`C83_shared_normals_quads`, `C83_shared_normals_partial`, `C83_shared_normals_refuted`). Proved for quadrilaterals and for hexahedra whose interior faces are parallelograms. Refuted for two hexahedra with a common face that is not flat: the code evaluates the normals at points with exchanged face coordinates (C22), a different place seen from the two sides, for every basis and order.
- **C84 The executables compute the DG solution of the input file, on any number of ranks** — composition of C85, C76, C78, C79; the sizes of the file are bounded independently of the partition (stored nodes are at most the element corners). Status: proved (`C84_solution_quads`, `C84_solution_hexahedra`, `C84_same_file`). Non-vacuity: case_* (two ranks, quadrilaterals) and C84_hexahedra_demo (2x2x1 cubes on one or two ranks). Start-up (C85), mesh reading and partitioning (C72, C76), set-up, initial projection, time loop, saving and conversion composed. Meshes of straight-sided quadrilaterals and of hexahedra whose interior faces are parallelograms (beyond that C83 is refuted); real arithmetic except for the number of steps, which is binary64.
- **C85 Start-up accepts exactly the inputs it can compute** — inversion of the start-up as a chain of look-ups, each parser shown to return exactly the enumerator of the name. Status: partial (`C85_startup`, `C85_ranks_agree`, `C85_other_dimension_refuted`, `C85_dimension_unchecked_refuted`, `C85_navier_stokes_refuted`). Exact characterisation of what start-up accepts, and of the configuration it yields (C85_startup). Refuted: a dimension other than 2 and 3 ends the program normally without computing anything; the dimension is not checked against basis or mesh; Navier-Stokes is accepted, with an uninitialised ratio of specific heats and gas constant.
- **C86 A run completes as long as the solution stays physical (total correctness)** — progress: every evaluation the scheme asks for exists when its traces are admissible (C64_evaluates), by induction over stages and steps; the set-up, projection, partition and output parts exist by construction. Status: proved (`C86_next_step`, `C86_completes`). C86_next_step: any reachable state, any schedule of the next step. C86_completes: existence of a complete run of both programs. The hypothesis on the solution is about the mathematical DG solution only (real arithmetic); with fewer than three interior faces on a rank the mesh constructor reads out of range (C08).
- **C87 Mass, momentum and energy are conserved on every hexahedral mesh, across ranks** — residual total as a sum over shared faces of the flux difference (slots_balance); zero when the normals agree, from the set-up theorems; refutation by an explicit linear state on two hexahedra. Status: partial (`C87_conservation_partial`, `C87_balance`, `C87_conservation_refuted`). Conserved whenever the faces shared by two ranks are parallelograms, in particular for every mesh on one rank (one_rank_shared; C87_demo has a non-flat face). C87_balance gives the exact defect otherwise. Refuted in general: on two ranks with a non-flat shared face one forward Euler step changes the total momentum, because the ranks store different normals for the face (C22, C83).
- **C88 Set-up and initialisation kernels are free of races** — teams as sequences of phases (loops shared among the threads, or code run by every thread) separated by barriers; each phase shown free of conflicts (or writing settled values) and every launch then equal to a sequential one (TeamPhases). Status: proved (`C88_set_up_any_schedule`, `C88_initial_state_any_schedule`). Every interleaving of loads and stores, team size and thread assignment. Trusted descriptions: KokkosBatched TeamLU/TeamSolveLU (synchronising, sequential result), parallel_reduce (a sum in some order), TeamCopy and the batched products as loops over entries; real arithmetic, so the order of a reduction does not matter. The face normals, where there is a race, are C82.
- **C89 A whole run on the devices gives the numerical solution, whatever the schedules** — the steppers' kernels as launches on device memory (TeamStep), a march as a list of launches and exchanges; per-launch determinism (TeamProof) and C81/C88 composed by induction over the list, against the DG specification. Status: proved (`C89_device_march`, `C89_device_run`, `C89_device_run_hexahedra`). Composition of C81, C88 and the steppers' kernels over all launches of a run; non-vacuity C89_demo (three ranks, teams of three) and C89_hexahedra_demo. The tables the residual kernels read are those of the sequential set-up, which C88 shows to be in memory; the face-normal kernel is the exception (C82) and its table is taken from its sequential execution. Exchanges are atomic steps here (what the messages do under every schedule is C12, C13).
- **C90 Ranks running on their own reach the numerical solution under every interleaving** — a transition system with the interleaved steps of all ranks (AsyncModel); invariant: every rank is at most one exchange ahead, its memory is one the item-by-item execution of C89 can have, and its side of the current exchange satisfies the invariant of C12 (AsyncProof); progress, a lexicographic measure and refinement of device_runs. Status: proved (`C90_asynchronous_runs`, `C90_asynchronous_march`, `C90_asynchronous_run`, `C90_asynchronous_run_hexahedra`). One transition system for all ranks (AsyncModel): launches, single loads and stores, team barriers, the statements of the exchange, MPI's reads. Non-vacuity: C90_demo, C90_hexahedra_demo. Host memory build (the other is C15); the blocks of the face states are copied into the exchange at the call and back at its return, during which the rank runs no kernel; sequentially consistent memory.
- **C91 From input file to solution file under every interleaving** — composition of C76/C85 (start-up), C88/C89 (kernels), C90 (interleavings) and C79 (output); uniqueness of the DG solution by congruence of the march in coefficients and inverse mass matrices. Status: proved (`C91_program_quads`, `C91_program_hexahedra`, `C91_starts`). C84 (input to file), C88/C89 (kernels) and C90 (interleavings) composed: the start-up, set-up and partition are those of the program, the run is a run of the transition system of C90, the output is C79's. C91_starts: such starts exist. Non-vacuity: C91_demo, C91_hexahedra_demo (one and two ranks, same file). Real arithmetic except for the number of steps (binary64).
- **C92 Uniform flow is preserved in three dimensions** — elements with flat faces are parallelepipeds, so the metric terms are constants and the residual is a product of one-dimensional rules; discrete integration by parts per axis (PolySize), symmetric weights for the orientations, consistency of the fluxes. Status: proved (`C92_uniform_initial`, `C92_uniform_evaluates`, `C92_uniform_residual`, `C92_free_stream`). Three-dimensional counterpart of C80. Non-vacuity: C92_demo (two oblique cells, periodic in all directions, two ranks, order 2: residual below 10^-19). For non-flat faces the stored normals are those of other points (C22), and nothing of the kind is claimed. The boundary term is the defect of C80_boundary_refuted.
- **C93 The numbering of elements, nodes and faces in a mesh file does not matter** — the two schemes, evaluated at corresponding coefficients, give corresponding residuals: element terms by equality of node positions, face terms by reindexing the sum over faces and, for turned faces, by opposite normals and the exchange law of the flux; induction over stages and steps; then C84 for both meshes. Status: proved (`C93_good_quads`, `C93_good_hexahedra`, `C93_solution_quads`, `C93_solution_hexahedra`, `C93_program_quads`, `C93_program_hexahedra`). The renumbered mesh is good when the original is (C93_good_*); then C84 for both programs, and correspondence of the two DG solutions. Lax-Friedrichs: any faces turned; HLLC: no turned face, or calm traces (the exception is C52_hllc_exchange_refuted). Non-vacuity: C93_demo, C93_hexahedra_demo (all numbers reversed, all faces turned, HLLC, one and two ranks). Local numbering inside an element (which corner is first) is not changed.
- **C94 The time a run prints and stores** — TimeModel.v: the clock of both steppers in binary64 (Flocq). Induction over the additions with the bound k^2 2^-53 h for k additions of h; halving is exact; the number of steps from the rounded quotient. Status: proved (`C94_time_of_a_run`, `C94_exact_time`, `C94_final_time`). IEEE binary64 additions, division by 2.0, division and truncation (Flocq), for both steppers. Non-vacuity: C94_demo (ten steps of 0.1 end at 1 - 2^-53, not at 1), C94_exact_demo.
- **C95 Axes and units do not matter** — covariance of velocity, pressure, sound speed and both fluxes under a rotation and change of units; metric terms, inverse Jacobians, normals and mass matrices of the similar mesh by uniqueness of inverses; residuals correspond up to a common factor, then induction over stages and steps; C84 for both runs. Status: proved (`C95_good_quads`, `C95_good_hexahedra`, `C95_solution_quads`, `C95_solution_hexahedra`, `C95_program_quads`, `C95_program_hexahedra`). Over the reals. The flux formulas are covariant for every pair of states (also inadmissible ones), so no assumption on the states is made. Non-vacuity: C95_demo (a 3-4-5 rotation, factor 10, moving gas), C95_hexahedra_demo, on one and two ranks. Of the initial conditions only Uniform has parameters that can be restated (the vortex and the Gaussian are fixed in absolute coordinates).
- **C96 First-order runs stay physical** — PropPositive.v: admissible states form a convex cone, U - F(U).n/lambda is admissible for lambda at least the fastest wave; the update of an element is a positive combination of such states under the CFL condition. Exact order-zero rules give areas and lengths (PropPositiveG.v); induction over steps, then C84 and C86. Status: proved (`C96_positive_quads`, `C96_positive_hexahedra`, `C96_program_quads`, `C96_program_hexahedra`). Over the reals. Areas and lengths are those of the mesh (half the cross product of the diagonals; edge lengths; areas of the parallelogram faces); the volume of a hexahedron is that of the two-point Gauss rule, exact if its Jacobian is constant (gauss_volume_exact). The CFL condition is assumed of the states the run passes through, as in practice. Higher orders have no such guarantee (no limiter in the code) and none is claimed. Non-vacuity: C96_demo, C96_hexahedra_demo (a wind against boundaries without flux, one and two ranks).
- **C97 Runs repeat to the last bit** — ArithModel.v: the kernels over an arbitrary record of operations. Every view is shown to hold a function of the mesh file, the case and the normals used (ref_march), by congruence of each kernel in the entries it reads and induction over loop orders, stages and steps; two runs agree because both equal that function. C97_exact_steps, C97_exact_run (ArithReal.v, ArithExact.v, PropReal.v, PropExact.v): with the real numbers as arithmetic a run of the real-number model (SetupModel.v, SolverModel.v, StepModel.v) is a run of this one, kernel by kernel. Status: proved (`C97_repeatable`, `C97_partitions`, `C97_rank_numbers`, `C97_runs`, `C97_exact_steps`, `C97_exact_run`). C97_exact_steps and C97_exact_run tie this model to the one of the other properties: every run of the latter (set-up, initial state, steps) is a run of the former over the real numbers. ArithModel.v states the numerical part of a run over an arbitrary record of operations, with the operations and association of the C++ text; the compiler is assumed to contract or reorder in the same way in both runs (one executable). C97_runs: such runs exist for every arithmetic (non-vacuity); lib_reads is met by kokkos_reads for the loops of the unblocked gemm and LU. A face that is inside a rank in one run and between ranks in the other gets its normal from one element in the former and from two in the latter: C98 is the case in which that makes no difference in binary64.
- **C98 On quadrilaterals the number of ranks changes no bit** — ArithDouble.v: signs and zeros in binary64 (Flocq). The two normals of a straight edge agree up to the sign of zero components, because swapping two nodes negates an exact-order two-term sum; the Lax-Friedrichs flux starts its sums from +0 and does not see that sign. Then C97. Refutation on hexahedra by computing both runs in binary64. Status: proved (`C98_quadrilaterals`, `C98_hexahedra_refuted`). Binary64 is Flocq's BinarySingleNaN, round to nearest even (all NaNs are one). The library is the loops of the unblocked KokkosBatched routines (kokkos double); with fused multiply-adds or blocked kernels only C97 applies. HLLC is not covered: the sign of a zero component of a normal can show in its flux. The refutation for hexahedra computes both runs of two boxes with the tables of order zero as the code computes them (tables_ok) and shows the two results, (1 - 2^-52)/8 and (1 - 2^-51)/8. Non-vacuity: C98_demo (four quadrilaterals, one and three ranks, five RK4 steps).
- **C99 The numbers in the mesh file change no bit** — ArithRenumber.v: each reference kernel of C97 on corresponding elements of two files (congruence, injectivity of the numberings); ArithTurn.v: in binary64 exchanging the sides negates the Lax-Friedrichs flux up to signs of zeros, and the accumulation of the residual, which never passes through -0, hides those; NaN in a flux is shown to persist to the end. Refutation without the NaN hypothesis by computing both runs. Status: proved (`C99_renumbered`, `C99_quadrilaterals`, `C99_nan_refuted`). Over ArithModel.v, as C97 and C98. A NaN in a flux stays in the coefficients of its element until the end (march_clean), so the assumption is only about the final states. The Lax-Friedrichs function takes the larger wave speed as 'if (a < aR) a = aR': a NaN on the right is ignored and one on the left is kept, which is what C99_nan_refuted shows at the level of runs. HLLC with exchanged sides is not symmetric (C32, C93). Non-vacuity: C99_demo (four quadrilaterals renumbered, sides of two faces exchanged, one and two ranks).
- **C100 The 3D vortex used for error norms solves the Euler equations** — over R: closed form of the 3D state, derivatives of the four fields along a line (Coquelicot is_derive), flux in primitive variables, field; the refutation evaluates the mass equation. Status: partial (`C100_vortex3_travels_partial`, `C100_vortex3_exact_refuted`). The carried state solves the equations and starts from the initial condition (proved). False of the code: the function for the exact solution ignores its time argument (functions.cpp 147-191: 'For now we assume that we compare this to the exact solution after 1 period'); what it returns violates the mass equation at every time and every point off the plane x = 1/2, and differs from the carried vortex at every time but 0.
- **C101 First-order runs with the HLLC flux stay physical** — HllcPositive.v: star states and fluxes of supersonic states are admissible, and an element that loses only to the push of its neighbour stays admissible; so minus the HLLC flux plus lambda times the state is admissible, on either side and in every branch. PropHllcPositive.v instantiates the order-zero section of PropPositive.v (now for any flux with that property), then C84 and C86. Status: proved (`C101_positive_quads`, `C101_positive_hexahedra`, `C101_program_quads`, `C101_program_hexahedra`). Over the reals. The CFL condition (cfl_by, hllc_speed) uses the textbook wave speeds wave_L, wave_R of PhysSpec, which the code's flux is proved to use (C51), and is assumed of the states the run passes through. hllc_left and hllc_right (HllcPositive.v) treat every branch of the flux; they do not need the contact wave to lie between the outer waves, which the estimates in the code do not ensure (C101_contact_overtakes). Areas, lengths and volumes as in C96. Non-vacuity: C101_demo, C101_hexahedra_demo (one and two ranks).
- **C102 A gas at rest with uneven density** — PropRest.v: by C53 the HLLC flux of two states at rest with the same pressure is the pressure push, whatever the densities, so by C77 the residual is that of the uniform gas, which C80/C92 bound. PropRestDemo.v: Lax-Friedrichs adds lambda/2 times the density jump at each face point; all terms have the same sign for an element lighter than its neighbours. Status: proved (`C102_rest_evaluates`, `C102_rest_quads`, `C102_rest_evaluates_hexahedra`, `C102_rest_hexahedra`, `C102_lax_friedrichs_diffuses`, `C102_lax_friedrichs_diffuses_hexahedra`). Over the reals. at_rest and still state the property from the basis functions and the coefficients the ranks hold. boundary_zero is what the code's zero-initialised flux arrays give (C80). The Lax-Friedrichs theorems weigh the residual with the coefficients of the function 1, i.e. they speak of the time derivative of the mass of the element. Non-vacuity: C102_demo (closed mesh of four quadrilaterals, order two, three ranks, one light element; both fluxes).
- **C103 A flow that repeats keeps repeating** — PropRenumber.v now needs only rewired (face rows correspond); PropSymmetry.v: translated elements have the same Jacobians, normals and mass matrices, the projection of a repeating field repeats, so march_corresponds of C93 maps the march to itself; programs by C84. Status: proved (`C103_solution_quads`, `C103_solution_hexahedra`, `C103_program_quads`, `C103_program_hexahedra`, `C103_vortex3`). Over the reals. repeats and field_repeats (PropSymmetry.v) state the symmetry from the mesh file's nodes and face rows and the map from reference to physical coordinates. Proof: a symmetry is a renumbering of the mesh onto itself (C93) whose elements are translated. Non-vacuity: C103_demo (four cubes closed in y, the 3D vortex, one and two ranks: the program runs and the two rows get the same coefficients), C103_quads_demo.
- **C104 A change reaches one element further per residual evaluation, and no faster** — PropLocal.v: induction over the stages: if the coefficients agree up to distance i+1 they agree up to distance i after one evaluation, the face sums of the two meshes being matched face by face (rsum_match); programs by C84. Status: proved (`C104_solution_quads`, `C104_solution_hexahedra`, `C104_program_quads`, `C104_program_hexahedra`). Over the reals. within, evaluations, same_near and same_start (PropLocal.v) state distance, number of evaluations and the correspondence from the mesh files' nodes and face rows. The Jacobians may depend on the location of an element only by translation. Non-vacuity: C104_demo (a strip of five squares against one of four: the program runs on both and the elements away from the difference get the same coefficients), C104_hexahedra_demo.
- **C105 The time integration is accurate to the advertised order** — Converge.v: calculus of functions O(h^n) uniform in the starting time; solution and Runge-Kutta stages expanded to order four in the derivatives of the right-hand side, stability in the tube, sum over the steps; PropConverge.v: the march of DGSpec.v is that iteration, programs by C84. Smooth.v, PropConvergeDemo.v: sums, products and quotients of coefficients are smooth along a curve; a two-square case whose exact solution has a closed form. Status: proved (`C105_solution_quads`, `C105_solution_hexahedra`, `C105_program_quads`, `C105_program_hexahedra`). Over the reals. C105_demo: two squares in a supersonic wind (HLLC, order 0) meet every hypothesis, with a closed form for the exact solution. solves_ode, smooth_along (Converge.v) and exact_in_time (PropConverge.v) state the exact solution in time and its smoothness: three derivatives with a fourth-order remainder, bounded uniformly along the solution, and a Lipschitz constant in a tube around it; nothing is assumed outside the tube. Existence of such a solution is assumed, not proved (where max and abs in the fluxes switch, the right-hand side is not smooth). Order conditions for nonlinear systems, not only linear ones as in C26. C105_ode_demo: a nonlinear system that meets the hypotheses.
- **C106 Which corner of an element comes first does not matter** — PropCorner.v: a quarter turn maps basis functions (permuted, with a sign), quadrature points, Jacobian rows and gradients and edges to each other; iterated by induction on the number of turns; schemes that differ by such a permutation and signs march alike (march_twisted); inverse mass matrices and the projection by uniqueness; programs by C84. PropCornerHex.v: the same in 3D for sequences of quarter turns about two axes; triple products instead of cross products, and the orientations of the two faces composed. Status: proved (`C106_good_quads`, `C106_solution_quads`, `C106_program_quads`, `C106_good_hexahedra`, `C106_solution_hexahedra`, `C106_program_hexahedra`). Over the reals; quadrilaterals and flat-faced hexahedra. relisted, quarter and value (PropCorner.v), relisted3 and spins (PropCornerHex.v) state the relisting from the mesh files' nodes and face rows and the solution from the basis functions; the coefficients themselves differ (permuted for Lagrange, permuted and with signs for Legendre bases). Uses that the tabulated rules are exactly symmetric. The projection's rule is symmetric too, so no quadrature error enters. Non-vacuity: C106_demo (three of the four quadrilaterals of C71 listed from another corner on, one and two ranks); C106_hexahedra_demo (three of the four cubes listed after turns of the cube).
- **C107 A mesh has one solution, however it is written down** — PropListing.v: existence from the inverse mass matrices and volume rules; a mesh with the numbering of the second file and the corners of the first splits written_again into C93 and C106. PropListingHex.v: the same for hexahedra, with the mesh midway between the two files. Status: proved (`C107_quads_exists`, `C107_hexahedra_exist`, `C107_quads_unique`, `C107_hexahedra_unique`, `C107_good_quads`, `C107_solution_quads`, `C107_program_quads`, `C107_demo`, `C107_good_hexahedra`, `C107_solution_hexahedra`, `C107_program_hexahedra`, `C107_hexahedra_demo`). Over the reals. written_again (PropListing.v) states from the two files' nodes and face rows that the second describes the first mesh: any permutation of elements and faces, any first corner per element, sides of faces exchanged at will; nodes are compared by coordinates. Existence: the mass matrices invert and every function has a projection. For hexahedra (PropListingHex.v, written_again3) the rotations of the cube are given as words in two quarter turns, and the face rows are any that name the same faces with matching orientations; HLLC with exchanged sides needs the condition of C93 (C93 shows why). Non-vacuity: C107_demo (the four quadrilaterals of C71 counted backwards with all sides exchanged and three elements turned, programs on one and two ranks) and C107_hexahedra_demo (the four cubes counted backwards, all sides exchanged, three cubes turned).

## Print Assumptions
`-` means closed under the global context.

| theorem | file | axioms |
|---|---|---|
| C01_element_ownership | PropMesh | - |
| C02_id_lookups_inverse | PropMesh | - |
| C03_local_connectivity | PropMesh | - |
| C04_interior_faces | PropMesh | - |
| C05_partition_in_bounds | PropMesh | - |
| C05_partitioned_exists | PropMesh | - |
| C06_neighbor_ranks | PropMesh | - |
| C07_ghost_lists_agree | PropMesh | - |
| C08_check_view_partial | PropMesh | - |
| C08_check_view_refuted | PropMesh | - |
| C09_num_partitions_refuted | PropMesh | - |
| C09_num_partitions_key | PropMesh | - |
| C09_more_partitions_refuted | PropParts | - |
| C10_reverse_face_table_partial | PropMesh | - |
| C10_reverse_face_table_refuted | PropMesh | - |
| C11_boundary_groups | PropMesh | - |
| C12_exchange_delivers | PropComm | - |
| C12_single_exchange | PropComm | - |
| C13_exchange_terminates | PropComm | - |
| C14_rounds_do_not_mix | PropComm | - |
| C15_device_send_buffer_refuted | PropComm | - |
| C16_print_in_rank_order | PropComm | - |
| C17_quad_face_point_order | PropShape | FE |
| C18_hex_face_point_order | PropShape | FE |
| C19_quad_points_on_face | PropShape | FE |
| C19_hex_points_on_face | PropShape | FE |
| C20_quad_local_nodes | PropShape | FE |
| C20_hex_local_nodes | PropShape | FE |
| C21_straight_quad_normals | PropNormals | FNCE |
| C21_curved_quad_normals | PropNormals | FNCE |
| C22_hex_normals_partial | PropNormals | FNCE |
| C22_hex_normals_refuted | PropNormals | FNCE |
| C23_face_flux_slots | PropSolver | FE |
| C24_face_terms_cancel | PropConserve | FE |
| C24_residual_conserves | PropConserve | FNE |
| C25_forward_euler | PropStep | FE |
| C25_runge_kutta | PropStep | FE |
| C25_time_advances | PropStep | FE |
| C25_counter_wraps_refuted | PropStep | F |
| C26_taylor | PropStep | FE |
| C27_exact_multiple | PropTime | FNCE |
| C28_small_inverse | PropLinAlg | FE |
| C29_identity_partial | PropLinAlg | F |
| C29_identity_of_zeroed_partial | PropLinAlg | F |
| C29_identity_refuted | PropLinAlg | FE |
| C30_dot | PropLinAlg | FE |
| C30_cross | PropLinAlg | FE |
| C30_vector_kernels | PropLinAlg | FE |
| C30_matrix_kernels | PropLinAlg | FE |
| C31_lagrange_values | PropBasis | FE |
| C32_lagrange_gradients | PropBasis | FNCE |
| C33_basis_values | PropBasis | FE |
| C33_basis_gradients | PropBasis | FNCE |
| C33_lagrange_nodal | PropBasis | FE |
| C34_legendre | PropBasis | FNCE |
| C35_legendre_complete_partial | PropBasis | FE |
| C35_order_above_7_refuted | PropBasis | FE |
| C36_gl_rules_partial | PropQuad | FNCE |
| C36_order_36_37_refuted | PropQuad | FNCE |
| C37_orders_tabulated_partial | PropQuad | FNCE |
| C37_orders_beyond_table_refuted | PropQuad | FE |
| C38_quadrilateral_rule | PropQuad | FE |
| C38_hexahedron_rule | PropQuad | FE |
| C38_quadrilateral_exactness | PropQuad | FNCE |
| C38_hexahedron_exactness | PropQuadHex | FNCE |
| C39_equidistant_segment | PropQuad | FE |
| C39_equidistant_tensor | PropQuad | FE |
| C40_parallel_round_trip | PropIO | - |
| C40_serial_round_trip | PropIO | - |
| C41_rank_mismatch_refused | PropIO | - |
| C41_reader_refuses | PropIO | - |
| C42_restart_round_trip | PropIO | - |
| C43_restart_time_refuted | PropIO | - |
| C44_converted_solution | PropIO | - |
| C44_single_rank | PropOutput | - |
| C44_column_major_refuted | PropIO | - |
| C45_common_element | PropUtil | - |
| C46_file_names_distinct | PropUtil | - |
| C47_options | PropUtil | - |
| C47_input_file_partial | PropUtil | - |
| C47_missing_value_refuted | PropUtil | - |
| C48_enum_round_trip | PropUtil | - |
| C49_lax_friedrichs | PropPhys | FNE |
| C50_hllc_consistent | PropPhys | FNE |
| C51_hllc_total | PropPhys | FNE |
| C51_contact_wave | PropPhys | FNE |
| C52_hllc_exchange_partial | PropPhys | FNE |
| C52_hllc_exchange_refuted | PropPhys | FNE |
| C53_hllc_contact | PropPhys | FNE |
| C54_euler_state | PropPhys | FNE |
| C54_primitive_state | PropPhys | FNE |
| C55_isentropic_vortex | PropVortex | FNCE |
| C55_gas_constant | PropVortex | FNCE |
| C56_projection | PropSolver | FE |
| C57_integral_kernels | PropSolver | FE |
| C57_element_term | PropSolver | FE |
| C58_sizes_agree | PropSize | - |
| C58_solution_file_sizes | PropSize | - |
| C58_inverse_mass_size | PropSize | - |
| C58_point_counts | PropSize | - |
| C58_every_element | PropSizeTri | - |
| C59_spd_inverse | PropLinAlg | FE |
| C59_lu_right_inverse | PropLinAlg | FE |
| C59_no_pivoting_refuted | PropLinAlg | FE |
| C60_normal_at_state_point_partial | PropNormals | FNCE |
| C60_curved_normals_refuted | PropNormals | FNCE |
| C61_quad_states_coincide | PropNormals | FE |
| C61_hex_states_coincide | PropNormals | FE |
| C62_vortex_exact | PropVortex | FNCE |
| C63_uniform_partial | PropVortex | FNCE |
| C63_vortex3_partial | PropVortex | FNCE |
| C63_initial_states_refuted | PropVortex | FNCE |
| C64_evaluates | PropResidual | FNE |
| C64_residual_well_defined | PropResidual | FNE |
| C65_integrals_conserved | PropIntegral | FNE |
| C66_rounded_multiple_partial | PropTime | FNCE |
| C66_decimal_refuted | PropTime | FNCE |
| C67_accepted_bases_partial | PropSize | - |
| C67_accepted_bases_refuted | PropSize | - |
| C68_setup_geometry | PropSetup | FNCE |
| C69_inverse_mass_matrices | PropSetup | FNCE |
| C70_setup_consistent | PropSetup | FNCE |
| C71_conservation_from_mesh | PropMeshRun | FNCE |
| C71_conservation_hexahedra | PropHex | FNCE |
| C72_mesh_read | PropRead | - |
| C73_initial_state | PropInit | FNCE |
| C73_best_approximation | PropInit | FNCE |
| C73_uniform_state | PropInit | FNCE |
| C74_error_norm | PropPost | FNCE |
| C74_any_partition | PropPost | FNCE |
| C74_exact_at_start | PropVortex | FNCE |
| C75_post_time_refuted | PropPost | FNCE |
| C76_mesh_constructor | PropCtor | - |
| C76_requested_partitions | PropCtor | - |
| C77_residual_of_scheme | PropDG | FNE |
| C77_residual_is_dg | PropDG | FNCE |
| C77_residual_is_dg_hexahedra | PropHex | FNCE |
| C78_run_is_dg | PropDG | FNCE |
| C78_partition_independent | PropDG | FNCE |
| C78_whole_run_partition_independent | PropDG | FNCE |
| C78_run_is_dg_hexahedra | PropHex | FNCE |
| C78_partition_independent_hexahedra | PropHex | FNCE |
| C78_whole_run_hexahedra | PropHex | FNCE |
| C79_converted_file | PropOutput | - |
| C79_same_file | PropOutput | FNCE |
| C79_same_file_hexahedra | PropHexOutput | FNCE |
| C80_uniform_initial | PropFree | FNCE |
| C80_uniform_evaluates | PropFree | FNCE |
| C80_uniform_residual | PropFree | FNCE |
| C80_free_stream | PropFree | FNCE |
| C80_boundary_refuted | PropFree | FNCE |
| C81_residual_any_schedule | PropTeam | FNCE |
| C81_mass_any_schedule | PropTeam | FCE |
| C82_normals_one_thread_partial | PropTeamNormals | FCE |
| C82_quad_normals_race_refuted | PropTeamNormals | FE |
| C82_hex_normals_race_refuted | PropTeamNormals | FCE |
| C83_shared_normals_quads | PropHexNormals | FNCE |
| C83_shared_normals_partial | PropHexNormals | FNCE |
| C83_shared_normals_refuted | PropHexNormals | FNCE |
| C84_solution_quads | PropWhole | FNCE |
| C84_solution_hexahedra | PropWhole | FNCE |
| C84_same_file | PropWhole | FNCE |
| C85_startup | PropProgram | FE |
| C85_ranks_agree | PropProgram | FE |
| C85_other_dimension_refuted | PropProgram | FE |
| C85_dimension_unchecked_refuted | PropProgram | FE |
| C85_navier_stokes_refuted | PropProgram | FE |
| C86_next_step | PropTotal | FNE |
| C86_completes | PropTotal | FNCE |
| C87_conservation_partial | PropBalance | FNCE |
| C87_balance | PropBalance | FNE |
| C87_conservation_refuted | PropBalanceDemo | FNCE |
| C88_set_up_any_schedule | PropTeamSetup | FCE |
| C88_initial_state_any_schedule | PropTeamSetup | FNCE |
| C89_device_march | PropDevice | FNCE |
| C89_device_run | PropDevice | FNCE |
| C89_device_run_hexahedra | PropDevice | FNCE |
| C90_asynchronous_runs | PropAsync | FCE |
| C90_asynchronous_march | PropAsync | FNCE |
| C90_asynchronous_run | PropAsync | FNCE |
| C90_asynchronous_run_hexahedra | PropAsync | FNCE |
| C91_program_quads | PropEnd | FNCE |
| C91_program_hexahedra | PropEnd | FNCE |
| C91_starts | PropEnd | FNCE |
| C92_uniform_initial | PropHexFree | FNCE |
| C92_uniform_evaluates | PropHexFree | FNCE |
| C92_uniform_residual | PropHexFree | FNCE |
| C92_free_stream | PropHexFree | FNCE |
| C93_good_quads | PropRenumber | FNE |
| C93_good_hexahedra | PropRenumber | FNE |
| C93_solution_quads | PropRenumber | FNE |
| C93_solution_hexahedra | PropRenumber | FNE |
| C93_program_quads | PropRenumber | FNCE |
| C93_program_hexahedra | PropRenumber | FNCE |
| C94_time_of_a_run | PropClock | FNCE |
| C94_exact_time | PropClock | FNCE |
| C94_final_time | PropClock | FNCE |
| C95_good_quads | PropSimilarG | FE |
| C95_good_hexahedra | PropSimilarG | FNCE |
| C95_solution_quads | PropSimilarG | FNCE |
| C95_solution_hexahedra | PropSimilarG | FNCE |
| C95_program_quads | PropSimilarG | FNCE |
| C95_program_hexahedra | PropSimilarG | FNCE |
| C96_positive_quads | PropPositiveG | FNCE |
| C96_positive_hexahedra | PropPositiveG | FNCE |
| C96_program_quads | PropPositiveG | FNCE |
| C96_program_hexahedra | PropPositiveG | FNCE |
| C97_repeatable | PropArith | FE |
| C97_partitions | PropArith | FE |
| C97_rank_numbers | PropArith | FE |
| C97_runs | ArithLibrary | - |
| C97_exact_steps | PropReal | FNCE |
| C97_exact_run | PropExact | FNCE |
| C98_quadrilaterals | PropDouble | FNCE |
| C98_hexahedra_refuted | PropDoubleHex | FNCE |
| C99_renumbered | PropBits | FE |
| C99_quadrilaterals | PropBitsTurn | FNCE |
| C99_nan_refuted | PropBitsDemo | FNCE |
| C100_vortex3_travels_partial | PropVortex3 | FNCE |
| C100_vortex3_exact_refuted | PropVortex3 | FNCE |
| C101_positive_quads | PropHllcPositive | FNCE |
| C101_positive_hexahedra | PropHllcPositive | FNCE |
| C101_program_quads | PropHllcPositive | FNCE |
| C101_program_hexahedra | PropHllcPositive | FNCE |
| C102_rest_evaluates | PropRest | FNCE |
| C102_rest_quads | PropRest | FNCE |
| C102_rest_evaluates_hexahedra | PropRest | FNCE |
| C102_rest_hexahedra | PropRest | FNCE |
| C102_lax_friedrichs_diffuses | PropRestDemo | FNCE |
| C102_lax_friedrichs_diffuses_hexahedra | PropRestDemo | FNCE |
| C103_solution_quads | PropSymmetry | FNCE |
| C103_solution_hexahedra | PropSymmetry | FNCE |
| C103_program_quads | PropSymmetry | FNCE |
| C103_program_hexahedra | PropSymmetry | FNCE |
| C103_vortex3 | PropSymmetry | FNCE |
| C104_solution_quads | PropLocal | FNCE |
| C104_solution_hexahedra | PropLocal | FNCE |
| C104_program_quads | PropLocal | FNCE |
| C104_program_hexahedra | PropLocal | FNCE |
| C105_solution_quads | PropConverge | FNCE |
| C105_solution_hexahedra | PropConverge | FNCE |
| C105_program_quads | PropConverge | FNCE |
| C105_program_hexahedra | PropConverge | FNCE |
| C106_good_quads | PropCorner | FNE |
| C106_solution_quads | PropCorner | FNCE |
| C106_program_quads | PropCorner | FNCE |
| C106_good_hexahedra | PropCornerHex | FNCE |
| C106_solution_hexahedra | PropCornerHex | FNCE |
| C106_program_hexahedra | PropCornerHex | FNCE |
| C107_quads_exists | PropListing | FNCE |
| C107_hexahedra_exist | PropListing | FNCE |
| C107_quads_unique | PropListing | FNE |
| C107_hexahedra_unique | PropListing | FNE |
| C107_good_quads | PropListing | FNE |
| C107_solution_quads | PropListing | FNCE |
| C107_program_quads | PropListing | FNCE |
| C107_demo | PropListingDemo | FNCE |
| C107_good_hexahedra | PropListingHex | FNCE |
| C107_solution_hexahedra | PropListingHex | FNCE |
| C107_program_hexahedra | PropListingHex | FNCE |
| C107_hexahedra_demo | PropListingHexDemo | FNCE |
