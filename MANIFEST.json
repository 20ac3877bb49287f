{
 "claims": [
  {
   "property": "C01",
   "status": "proved",
   "theorems": [
    "C01_element_ownership"
   ],
   "note": "All meshes, rank counts, assignments."
  },
  {
   "property": "C02",
   "status": "proved",
   "theorems": [
    "C02_id_lookups_inverse"
   ],
   "note": ""
  },
  {
   "property": "C03",
   "status": "proved",
   "theorems": [
    "C03_local_connectivity"
   ],
   "note": ""
  },
  {
   "property": "C04",
   "status": "proved",
   "theorems": [
    "C04_interior_faces"
   ],
   "note": ""
  },
  {
   "property": "C05",
   "status": "proved",
   "theorems": [
    "C05_partition_in_bounds",
    "C05_partitioned_exists"
   ],
   "note": "Excludes the diagnostic print, which is C08."
  },
  {
   "property": "C06",
   "status": "proved",
   "theorems": [
    "C06_neighbor_ranks"
   ],
   "note": ""
  },
  {
   "property": "C07",
   "status": "proved",
   "theorems": [
    "C07_ghost_lists_agree"
   ],
   "note": ""
  },
  {
   "property": "C08",
   "status": "partial",
   "theorems": [
    "C08_check_view_partial",
    "C08_check_view_refuted"
   ],
   "note": "False of the code: partition() completes iff the rank has at least three faces; witness with two faces."
  },
  {
   "property": "C09",
   "status": "partial",
   "theorems": [
    "C09_num_partitions_refuted",
    "C09_num_partitions_key",
    "C09_more_partitions_refuted"
   ],
   "note": "False of the code when npartitions differs from the number of ranks: with fewer, the ranks without a partition read out of bounds; with more, on every mesh either every rank reads out of bounds or the elements of the surplus partitions are on no rank."
  },
  {
   "property": "C10",
   "status": "partial",
   "theorems": [
    "C10_reverse_face_table_partial",
    "C10_reverse_face_table_refuted"
   ],
   "note": "True without self faces, false with one (one-cell periodic mesh)."
  },
  {
   "property": "C11",
   "status": "proved",
   "theorems": [
    "C11_boundary_groups"
   ],
   "note": ""
  },
  {
   "property": "C12",
   "status": "proved",
   "theorems": [
    "C12_exchange_delivers",
    "C12_single_exchange"
   ],
   "note": "Every partitioned mesh (the tables the model of Mesh::partition builds), every number of exchanges, every schedule of ranks and message copies; host memory."
  },
  {
   "property": "C13",
   "status": "proved",
   "theorems": [
    "C13_exchange_terminates"
   ],
   "note": "No crash, no deadlock, explicit bound on the length of every execution, completion from every reachable state, no message left over."
  },
  {
   "property": "C14",
   "status": "proved",
   "theorems": [
    "C14_rounds_do_not_mix"
   ],
   "note": "Contents of every message in flight and of every filled receive buffer, in every reachable state of any number of consecutive exchanges."
  },
  {
   "property": "C15",
   "status": "partial",
   "theorems": [
    "C15_device_send_buffer_refuted"
   ],
   "note": "The property is false of the code: a schedule that reads a destroyed host copy is exhibited. (C13/C14 give the property for host memory.)"
  },
  {
   "property": "C16",
   "status": "proved",
   "theorems": [
    "C16_print_in_rank_order"
   ],
   "note": "Output is always a prefix of header, blocks 0..n-1, footer; complete at the end; never stuck."
  },
  {
   "property": "C28",
   "status": "proved",
   "theorems": [
    "C28_small_inverse"
   ],
   "note": "Two-sided inverse for sizes 1, 2, 3 and the determinant; nothing outside the block written."
  },
  {
   "property": "C29",
   "status": "partial",
   "theorems": [
    "C29_identity_partial",
    "C29_identity_of_zeroed_partial",
    "C29_identity_refuted"
   ],
   "note": "False of the code: identity only writes the diagonal; exact effect proved, and the consequence for invA."
  },
  {
   "property": "C30",
   "status": "proved",
   "theorems": [
    "C30_dot",
    "C30_cross",
    "C30_vector_kernels",
    "C30_matrix_kernels"
   ],
   "note": "Library kernels (KokkosBlas, KokkosBatched) modelled by their unblocked loops."
  },
  {
   "property": "C59",
   "status": "proved",
   "theorems": [
    "C59_spd_inverse",
    "C59_lu_right_inverse",
    "C59_no_pivoting_refuted"
   ],
   "note": "Any size; plus: right inverse for every matrix whose pivots do not vanish, and a regular matrix on which the pivot-free factorisation breaks down."
  },
  {
   "property": "C36",
   "status": "partial",
   "theorems": [
    "C36_gl_rules_partial",
    "C36_order_36_37_refuted"
   ],
   "note": "Proved for every order 0..49 except 36 and 37 and every polynomial; false of the code for 36 and 37: node 15 of the 19-point rule is never assigned (node 16 is assigned twice), integral of t^2 off by more than 0.06."
  },
  {
   "property": "C37",
   "status": "partial",
   "theorems": [
    "C37_orders_tabulated_partial",
    "C37_orders_beyond_table_refuted",
    "C36_order_36_37_refuted"
   ],
   "note": "True for solution orders 0..23 except 17; false of the code for 17 and for every order from 24 on (nothing assigned, all quadrature sums zero)."
  },
  {
   "property": "C38",
   "status": "proved",
   "theorems": [
    "C38_quadrilateral_rule",
    "C38_hexahedron_rule",
    "C38_quadrilateral_exactness",
    "C38_hexahedron_exactness"
   ],
   "note": "Any 1D rule; plus exactness of the tabulated quadrilateral and hexahedral rules on polynomials."
  },
  {
   "property": "C39",
   "status": "proved",
   "theorems": [
    "C39_equidistant_segment",
    "C39_equidistant_tensor"
   ],
   "note": "Exact real arithmetic."
  },
  {
   "property": "C31",
   "status": "proved",
   "theorems": [
    "C31_lagrange_values"
   ],
   "note": "any distinct nodes, any number of nodes; nodal, partition of unity, reproduces every polynomial up to degree n-1, other entries unchanged"
  },
  {
   "property": "C32",
   "status": "proved",
   "theorems": [
    "C32_lagrange_gradients"
   ],
   "note": "gradient routine is the derivative (Coquelicot is_derive) of the value routine; gradients sum to zero"
  },
  {
   "property": "C33",
   "status": "proved",
   "theorems": [
    "C33_basis_values",
    "C33_basis_gradients",
    "C33_lagrange_nodal"
   ],
   "note": "all six bases through Basis::get_values/get_grads, including order 0; nodal at the nodes of nodes.cpp; Legendre up to order 7 (see C35)"
  },
  {
   "property": "C34",
   "status": "proved",
   "theorems": [
    "C34_legendre"
   ],
   "note": "recurrence, orthogonality with norms 2/(2i+1), gradients are derivatives, for every order the tables provide (0..7)"
  },
  {
   "property": "C35",
   "status": "partial",
   "theorems": [
    "C35_legendre_complete_partial",
    "C35_order_above_7_refuted"
   ],
   "note": "holds up to order 7; false of the code for every order above 7: only a message is printed and entries 7..p keep the previous contents"
  },
  {
   "property": "C17",
   "status": "proved",
   "theorems": [
    "C17_quad_face_point_order"
   ],
   "note": "both orientations, all faces, any symmetric points; unknown orientations leave the order untouched"
  },
  {
   "property": "C18",
   "status": "proved",
   "theorems": [
    "C18_hex_face_point_order"
   ],
   "note": "all 8 orientations, all 6 faces, any number of points per direction"
  },
  {
   "property": "C19",
   "status": "proved",
   "theorems": [
    "C19_quad_points_on_face",
    "C19_hex_points_on_face"
   ],
   "note": "position, range, corner order and outward orientation of the parametrisation"
  },
  {
   "property": "C20",
   "status": "proved",
   "theorems": [
    "C20_quad_local_nodes",
    "C20_hex_local_nodes"
   ],
   "note": "every geometric order >= 1; exactly the nodes on the face, in face-point order"
  },
  {
   "property": "C21",
   "status": "proved",
   "theorems": [
    "C21_straight_quad_normals",
    "C21_curved_quad_normals"
   ],
   "note": "straight sides as stated, plus: for any geometric order the stored normal is the perpendicular of the curve the element map traces"
  },
  {
   "property": "C22",
   "status": "partial",
   "theorems": [
    "C22_hex_normals_partial",
    "C22_hex_normals_refuted"
   ],
   "note": "False of the code: the normal is evaluated at the point with the two face coordinates exchanged (exact characterisation proved, any order); correct for parallelogram faces; counterexample with a bilinear face"
  },
  {
   "property": "C60",
   "status": "partial",
   "theorems": [
    "C60_normal_at_state_point_partial",
    "C60_curved_normals_refuted"
   ],
   "note": "Holds for orientation 0 and straight edges; false for curved edges: two ranks store different normals for the same point"
  },
  {
   "property": "C61",
   "status": "proved",
   "theorems": [
    "C61_quad_states_coincide",
    "C61_hex_states_coincide"
   ],
   "note": "any geometric order, any faces, 2 and 8 orientations"
  },
  {
   "property": "C49",
   "status": "proved",
   "theorems": [
    "C49_lax_friedrichs"
   ],
   "note": "closed form of the flux, consistency, antisymmetry, homogeneity; 2D and 3D; independent of prior contents of work and output arrays"
  },
  {
   "property": "C50",
   "status": "proved",
   "theorems": [
    "C50_hllc_consistent"
   ],
   "note": "2D and 3D"
  },
  {
   "property": "C51",
   "status": "proved",
   "theorems": [
    "C51_hllc_total",
    "C51_contact_wave"
   ],
   "note": "no failed division, square root or assertion; the result is the textbook HLLC flux, and the contact wave satisfies Rankine-Hugoniot"
  },
  {
   "property": "C52",
   "status": "partial",
   "theorems": [
    "C52_hllc_exchange_partial",
    "C52_hllc_exchange_refuted"
   ],
   "note": "Holds unless both states run into the face at or above their sound speed; in that case false (both orders return their own left flux)"
  },
  {
   "property": "C53",
   "status": "proved",
   "theorems": [
    "C53_hllc_contact"
   ],
   "note": ""
  },
  {
   "property": "C54",
   "status": "proved",
   "theorems": [
    "C54_euler_state",
    "C54_primitive_state"
   ],
   "note": "2D and 3D"
  },
  {
   "property": "C55",
   "status": "proved",
   "theorems": [
    "C55_isentropic_vortex",
    "C55_gas_constant"
   ],
   "note": "requires gas constant 1 (the code asserts it)"
  },
  {
   "property": "C62",
   "status": "proved",
   "theorems": [
    "C62_vortex_exact"
   ],
   "note": "2D; partial derivatives in the sense of Coquelicot's is_derive"
  },
  {
   "property": "C63",
   "status": "partial",
   "theorems": [
    "C63_uniform_partial",
    "C63_vortex3_partial",
    "C55_isentropic_vortex",
    "C63_initial_states_refuted"
   ],
   "note": "True for Uniform and IsentropicVortex; false for Sphere (negative pressure everywhere), Gaussian (vacuum on an axis) and the dimension/name combinations that leave the state unset"
  },
  {
   "property": "C23",
   "status": "proved",
   "theorems": [
    "C23_face_flux_slots"
   ],
   "note": "race freedom, opposite signs, untouched remainder, and the gather reading the same slots; every order of the parallel loop"
  },
  {
   "property": "C24",
   "status": "proved",
   "theorems": [
    "C24_face_terms_cancel",
    "C24_residual_conserves"
   ],
   "note": "for any fluxes that agree on the ranks of a face; and for the whole residual when the normals of both ranks agree (true for straight faces; see C60)"
  },
  {
   "property": "C56",
   "status": "proved",
   "theorems": [
    "C56_projection"
   ],
   "note": "any basis, quadrature and order of the loop"
  },
  {
   "property": "C57",
   "status": "proved",
   "theorems": [
    "C57_integral_kernels",
    "C57_element_term"
   ],
   "note": "kernels, and the whole element term of the residual"
  },
  {
   "property": "C64",
   "status": "proved",
   "theorems": [
    "C64_evaluates",
    "C64_residual_well_defined"
   ],
   "note": "all ranks, using the exchange of C12"
  },
  {
   "property": "C25",
   "status": "proved",
   "theorems": [
    "C25_forward_euler",
    "C25_runge_kutta",
    "C25_time_advances",
    "C25_counter_wraps_refuted"
   ],
   "note": "Any residual function, layout and loop order; stage states and stage times of every residual call; fewer than 2^32 entries per rank (with 2^32 entries the 32-bit counter wraps and the step changes nothing: C25_counter_wraps_refuted)."
  },
  {
   "property": "C26",
   "status": "proved",
   "theorems": [
    "C26_taylor"
   ],
   "note": "Any linear operator; follows from C25."
  },
  {
   "property": "C27",
   "status": "proved",
   "theorems": [
    "C27_exact_multiple"
   ],
   "note": "IEEE binary64 division and truncation (Flocq)."
  },
  {
   "property": "C65",
   "status": "proved",
   "theorems": [
    "C65_integrals_conserved"
   ],
   "note": "Any number of FE/RK4 steps in any mix, all ranks, all schedules; mass matrix inverse and agreement of the normals on shared faces as hypotheses (C28/C59; C71 and C87 discharge them from the set-up code, for quadrilaterals and for hexahedra whose shared faces are parallelograms)."
  },
  {
   "property": "C66",
   "status": "partial",
   "theorems": [
    "C66_rounded_multiple_partial",
    "C66_decimal_refuted"
   ],
   "note": "False of the code: 0.3/0.1 gives 2 steps. Proved: the number of steps is always n or n - 1."
  },
  {
   "property": "C45",
   "status": "proved",
   "theorems": [
    "C45_common_element"
   ],
   "note": "All sorted integer ranges."
  },
  {
   "property": "C46",
   "status": "proved",
   "theorems": [
    "C46_file_names_distinct"
   ],
   "note": "All prefixes, suffixes and iteration numbers, including negative ones and more than 8 digits."
  },
  {
   "property": "C47",
   "status": "partial",
   "theorems": [
    "C47_options",
    "C47_input_file_partial",
    "C47_missing_value_refuted"
   ],
   "note": "The two helper functions are as stated; false of the programs: a trailing -input makes main construct a string from a null pointer."
  },
  {
   "property": "C48",
   "status": "proved",
   "theorems": [
    "C48_enum_round_trip"
   ],
   "note": "All 11 enumerations, all strings."
  },
  {
   "property": "C58",
   "status": "proved",
   "theorems": [
    "C58_sizes_agree",
    "C58_solution_file_sizes",
    "C58_inverse_mass_size",
    "C58_point_counts",
    "C58_every_element",
    "C58_plots_every_element"
   ],
   "note": "C58_every_element and C58_plots_every_element cover every basis name, triangles included. Every order and geometric order for the five bases both parts of the code know (for the other names see C67)."
  },
  {
   "property": "C67",
   "status": "partial",
   "theorems": [
    "C67_accepted_bases_partial",
    "C67_accepted_bases_refuted"
   ],
   "note": "False of the code: the GLL, GL and triangle names pass the numerics parameters, then the Basis constructor calls an unset function pointer; LegendreSeg is rejected by the numerics parameters although the Basis class implements it. Proved: exactly the five names of the segment, quadrilateral and hexahedron bases work throughout."
  },
  {
   "property": "C40",
   "status": "proved",
   "theorems": [
    "C40_parallel_round_trip",
    "C40_serial_round_trip"
   ],
   "note": "Any number of ranks, any shapes of the same rank >= 1, any arrival order of the writes; hsize_t unbounded."
  },
  {
   "property": "C41",
   "status": "proved",
   "theorems": [
    "C41_rank_mismatch_refused",
    "C41_reader_refuses"
   ],
   "note": "Every rank of the mismatching read fails; the Reader constructor fails on the head rank."
  },
  {
   "property": "C42",
   "status": "proved",
   "theorems": [
    "C42_restart_round_trip"
   ],
   "note": "Both layouts; at most 2^32 coefficients per rank, since the code indexes the buffer with 32-bit unsigned arithmetic."
  },
  {
   "property": "C43",
   "status": "partial",
   "theorems": [
    "C43_restart_time_refuted"
   ],
   "note": "The property is false of the code: read_in_coefficients reads the stored time and drops it; proved as a refutation for every run."
  },
  {
   "property": "C44",
   "status": "partial",
   "theorems": [
    "C44_converted_solution",
    "C44_single_rank",
    "C44_column_major_refuted"
   ],
   "note": "Proved for row-major files on any number of ranks, and for either layout on one rank (sizes below MPI's int limit). Refuted for column-major files: the sorting ignores the stored layout."
  },
  {
   "property": "C68",
   "status": "proved",
   "theorems": [
    "C68_setup_geometry"
   ],
   "note": "Quadrilaterals and hexahedra, geometric order 1 or higher, orders 0 to 11 (larger orders need rules beyond the tabulated ones), exact real arithmetic."
  },
  {
   "property": "C69",
   "status": "proved",
   "theorems": [
    "C69_inverse_mass_matrices"
   ],
   "note": "As C68; the Gram matrix is taken under the quadrature rule the code uses, which is what C24/C65 need."
  },
  {
   "property": "C70",
   "status": "proved",
   "theorems": [
    "C70_setup_consistent"
   ],
   "note": "As C68."
  },
  {
   "property": "C71",
   "status": "proved",
   "theorems": [
    "C71_conservation_from_mesh",
    "C71_conservation_hexahedra"
   ],
   "note": "Straight-sided quadrilaterals, and hexahedra whose interior faces are parallelograms (geometric order 1); the code gives boundary faces no flux. For other hexahedra the ranks store different normals for a shared face (C83)."
  },
  {
   "property": "C72",
   "status": "proved",
   "theorems": [
    "C72_mesh_read"
   ],
   "note": "Self faces included; elements with more than six face sides overflow the code's fixed tables and are excluded; boundary names distinct."
  },
  {
   "property": "C73",
   "status": "proved",
   "theorems": [
    "C73_initial_state",
    "C73_best_approximation",
    "C73_uniform_state"
   ],
   "note": "For order 0 the code uses different rules for the mass matrix and the right-hand side: C73_initial_state gives the equation that then holds. Initial conditions that leave the state unset (C63) do not qualify."
  },
  {
   "property": "C74",
   "status": "proved",
   "theorems": [
    "C74_error_norm",
    "C74_any_partition",
    "C74_exact_at_start"
   ],
   "note": "Reductions add over the reals (order immaterial); the exponent is 2, as in the program. The volume uses the rule of the order, the error the rule of twice the order, as in the code."
  },
  {
   "property": "C75",
   "status": "partial",
   "theorems": [
    "C75_post_time_refuted"
   ],
   "note": "False: the solver's time is 0 after reading the file (C43), so the exact solution is taken at time 0; proved what is printed instead, and that it is wrong whenever the distances at the two times differ."
  },
  {
   "property": "C76",
   "status": "proved",
   "theorems": [
    "C76_mesh_constructor",
    "C76_requested_partitions"
   ],
   "note": "For ranks with at least three faces; with fewer the construction reads past the face table (C08). The npartitions keys: C09."
  },
  {
   "property": "C77",
   "status": "proved",
   "theorems": [
    "C77_residual_of_scheme",
    "C77_residual_is_dg",
    "C77_residual_is_dg_hexahedra"
   ],
   "note": "C77_residual_of_scheme: any discretisation data the ranks agree on, quadrilaterals and hexahedra. C77_residual_is_dg(_hexahedra): straight-sided quadrilaterals, hexahedra with parallelogram interior faces, data from the solver's own set-up. Exact real arithmetic. Boundary faces contribute nothing, as in the code."
  },
  {
   "property": "C78",
   "status": "proved",
   "theorems": [
    "C78_run_is_dg",
    "C78_partition_independent",
    "C78_whole_run_partition_independent",
    "C78_run_is_dg_hexahedra",
    "C78_partition_independent_hexahedra",
    "C78_whole_run_hexahedra"
   ],
   "note": "Exact real arithmetic: in floating point the residual sums round the same way on each element up to the order in which the parallel loops add."
  },
  {
   "property": "C79",
   "status": "proved",
   "theorems": [
    "C79_converted_file",
    "C79_same_file",
    "C79_same_file_hexahedra"
   ],
   "note": "Row-major builds (for column-major ones see C44). C79_converted_file: any element type and any solution held by the ranks. C79_same_file(_hexahedra): straight-sided quadrilaterals, hexahedra with parallelogram interior faces, exact real arithmetic."
  },
  {
   "property": "C80",
   "status": "partial",
   "theorems": [
    "C80_uniform_initial",
    "C80_uniform_evaluates",
    "C80_uniform_residual",
    "C80_free_stream",
    "C80_boundary_refuted"
   ],
   "note": "Proved for elements with a neighbour on every edge (all elements of a periodic mesh), with an explicit bound. Refuted for elements at the boundary of the mesh: the solver adds no boundary face terms, so gas at rest in a box starts to move; C80_uniform_residual says what the residual is there. Straight-sided quadrilaterals, exact real arithmetic with the tabulated (rounded) rules."
  },
  {
   "property": "C81",
   "status": "proved",
   "theorems": [
    "C81_residual_any_schedule",
    "C81_mass_any_schedule"
   ],
   "note": "Sequentially consistent memory with indivisible loads and stores of one number; kernels of one execution-space instance run one after the other. The team matrix product follows KokkosBatched's unblocked TeamGemm."
  },
  {
   "property": "C82",
   "status": "partial",
   "theorems": [
    "C82_normals_one_thread_partial",
    "C82_quad_normals_race_refuted",
    "C82_hex_normals_race_refuted"
   ],
   "note": "Holds with one thread per team (the default of Kokkos' host back ends with AUTO may be more). Refuted with two: the team matrix product does not end with a barrier and get_normals_on_face has none, so a thread may read the other thread's entry of the tangent before it is computed (quadrilaterals: component 0 for every face), and every thread stores the cross product before the shared scaling by the sign (hexahedra: the sign of the face can be lost)."
  },
  {
   "property": "C83",
   "status": "partial",
   "theorems": [
    "C83_shared_normals_quads",
    "C83_shared_normals_partial",
    "C83_shared_normals_refuted"
   ],
   "note": "Proved for quadrilaterals and for hexahedra whose interior faces are parallelograms. Refuted for two hexahedra with a common face that is not flat: the code evaluates the normals at points with exchanged face coordinates (C22), a different place seen from the two sides, for every basis and order."
  },
  {
   "property": "C84",
   "status": "proved",
   "theorems": [
    "C84_solution_quads",
    "C84_solution_hexahedra",
    "C84_same_file"
   ],
   "note": "Non-vacuity: case_* (two ranks, quadrilaterals) and C84_hexahedra_demo (2x2x1 cubes on one or two ranks). Start-up (C85), mesh reading and partitioning (C72, C76), set-up, initial projection, time loop, saving and conversion composed. Meshes of straight-sided quadrilaterals and of hexahedra whose interior faces are parallelograms (beyond that C83 is refuted); real arithmetic except for the number of steps, which is binary64."
  },
  {
   "property": "C85",
   "status": "partial",
   "theorems": [
    "C85_startup",
    "C85_ranks_agree",
    "C85_other_dimension_refuted",
    "C85_dimension_unchecked_refuted",
    "C85_navier_stokes_refuted"
   ],
   "note": "Exact characterisation of what start-up accepts, and of the configuration it yields (C85_startup). Refuted: a dimension other than 2 and 3 ends the program normally without computing anything; the dimension is not checked against basis or mesh; Navier-Stokes is accepted, with an uninitialised ratio of specific heats and gas constant."
  },
  {
   "property": "C86",
   "status": "proved",
   "theorems": [
    "C86_next_step",
    "C86_completes"
   ],
   "note": "C86_next_step: any reachable state, any schedule of the next step. C86_completes: existence of a complete run of both programs. The hypothesis on the solution is about the mathematical DG solution only (real arithmetic); with fewer than three interior faces on a rank the mesh constructor reads out of range (C08)."
  },
  {
   "property": "C87",
   "status": "partial",
   "theorems": [
    "C87_conservation_partial",
    "C87_balance",
    "C87_conservation_refuted"
   ],
   "note": "Conserved whenever the faces shared by two ranks are parallelograms, in particular for every mesh on one rank (one_rank_shared; C87_demo has a non-flat face). C87_balance gives the exact defect otherwise. Refuted in general: on two ranks with a non-flat shared face one forward Euler step changes the total momentum, because the ranks store different normals for the face (C22, C83)."
  },
  {
   "property": "C88",
   "status": "proved",
   "theorems": [
    "C88_set_up_any_schedule",
    "C88_initial_state_any_schedule"
   ],
   "note": "Every interleaving of loads and stores, team size and thread assignment. Trusted descriptions: KokkosBatched TeamLU/TeamSolveLU (synchronising, sequential result), parallel_reduce (a sum in some order), TeamCopy and the batched products as loops over entries; real arithmetic, so the order of a reduction does not matter. The face normals, where there is a race, are C82."
  },
  {
   "property": "C89",
   "status": "proved",
   "theorems": [
    "C89_device_march",
    "C89_device_run",
    "C89_device_run_hexahedra"
   ],
   "note": "Composition of C81, C88 and the steppers' kernels over all launches of a run; non-vacuity C89_demo (three ranks, teams of three) and C89_hexahedra_demo. The tables the residual kernels read are those of the sequential set-up, which C88 shows to be in memory; the face-normal kernel is the exception (C82) and its table is taken from its sequential execution. Exchanges are atomic steps here (what the messages do under every schedule is C12, C13)."
  },
  {
   "property": "C90",
   "status": "proved",
   "theorems": [
    "C90_asynchronous_runs",
    "C90_asynchronous_march",
    "C90_asynchronous_run",
    "C90_asynchronous_run_hexahedra"
   ],
   "note": "One transition system for all ranks (AsyncModel): launches, single loads and stores, team barriers, the statements of the exchange, MPI's reads. Non-vacuity: C90_demo, C90_hexahedra_demo. Host memory build (the other is C15); the blocks of the face states are copied into the exchange at the call and back at its return, during which the rank runs no kernel; sequentially consistent memory."
  },
  {
   "property": "C91",
   "status": "proved",
   "theorems": [
    "C91_program_quads",
    "C91_program_hexahedra",
    "C91_starts"
   ],
   "note": "C84 (input to file), C88/C89 (kernels) and C90 (interleavings) composed: the start-up, set-up and partition are those of the program, the run is a run of the transition system of C90, the output is C79's. C91_starts: such starts exist. Non-vacuity: C91_demo, C91_hexahedra_demo (one and two ranks, same file). Real arithmetic except for the number of steps (binary64)."
  },
  {
   "property": "C92",
   "status": "proved",
   "theorems": [
    "C92_uniform_initial",
    "C92_uniform_evaluates",
    "C92_uniform_residual",
    "C92_free_stream"
   ],
   "note": "Three-dimensional counterpart of C80. Non-vacuity: C92_demo (two oblique cells, periodic in all directions, two ranks, order 2: residual below 10^-19). For non-flat faces the stored normals are those of other points (C22), and nothing of the kind is claimed. The boundary term is the defect of C80_boundary_refuted."
  },
  {
   "property": "C93",
   "status": "proved",
   "theorems": [
    "C93_good_quads",
    "C93_good_hexahedra",
    "C93_solution_quads",
    "C93_solution_hexahedra",
    "C93_program_quads",
    "C93_program_hexahedra"
   ],
   "note": "The renumbered mesh is good when the original is (C93_good_*); then C84 for both programs, and correspondence of the two DG solutions. Lax-Friedrichs: any faces turned; HLLC: no turned face, or calm traces (the exception is C52_hllc_exchange_refuted). Non-vacuity: C93_demo, C93_hexahedra_demo (all numbers reversed, all faces turned, HLLC, one and two ranks). Local numbering inside an element (which corner is first) is not changed."
  },
  {
   "property": "C94",
   "status": "proved",
   "theorems": [
    "C94_time_of_a_run",
    "C94_exact_time",
    "C94_final_time"
   ],
   "note": "IEEE binary64 additions, division by 2.0, division and truncation (Flocq), for both steppers. Non-vacuity: C94_demo (ten steps of 0.1 end at 1 - 2^-53, not at 1), C94_exact_demo."
  },
  {
   "property": "C95",
   "status": "proved",
   "theorems": [
    "C95_good_quads",
    "C95_good_hexahedra",
    "C95_solution_quads",
    "C95_solution_hexahedra",
    "C95_program_quads",
    "C95_program_hexahedra"
   ],
   "note": "Over the reals. The flux formulas are covariant for every pair of states (also inadmissible ones), so no assumption on the states is made. Non-vacuity: C95_demo (a 3-4-5 rotation, factor 10, moving gas), C95_hexahedra_demo, on one and two ranks. Of the initial conditions only Uniform has parameters that can be restated (the vortex and the Gaussian are fixed in absolute coordinates)."
  },
  {
   "property": "C96",
   "status": "proved",
   "theorems": [
    "C96_positive_quads",
    "C96_positive_hexahedra",
    "C96_program_quads",
    "C96_program_hexahedra"
   ],
   "note": "Over the reals. Areas and lengths are those of the mesh (half the cross product of the diagonals; edge lengths; areas of the parallelogram faces); the volume of a hexahedron is that of the two-point Gauss rule, exact if its Jacobian is constant (gauss_volume_exact). The CFL condition is assumed of the states the run passes through, as in practice. Higher orders have no such guarantee (no limiter in the code) and none is claimed. Non-vacuity: C96_demo, C96_hexahedra_demo (a wind against boundaries without flux, one and two ranks)."
  },
  {
   "property": "C97",
   "status": "proved",
   "theorems": [
    "C97_repeatable",
    "C97_partitions",
    "C97_rank_numbers",
    "C97_runs",
    "C97_exact_steps",
    "C97_exact_run"
   ],
   "note": "C97_exact_steps and C97_exact_run tie this model to the one of the other properties: every run of the latter (set-up, initial state, steps) is a run of the former over the real numbers. ArithModel.v states the numerical part of a run over an arbitrary record of operations, with the operations and association of the C++ text; the compiler is assumed to contract or reorder in the same way in both runs (one executable). C97_runs: such runs exist for every arithmetic (non-vacuity); lib_reads is met by kokkos_reads for the loops of the unblocked gemm and LU. A face that is inside a rank in one run and between ranks in the other gets its normal from one element in the former and from two in the latter: C98 is the case in which that makes no difference in binary64."
  },
  {
   "property": "C98",
   "status": "proved",
   "theorems": [
    "C98_quadrilaterals",
    "C98_hexahedra_refuted"
   ],
   "note": "Binary64 is Flocq's BinarySingleNaN, round to nearest even (all NaNs are one). The library is the loops of the unblocked KokkosBatched routines (kokkos double); with fused multiply-adds or blocked kernels only C97 applies. HLLC is not covered: the sign of a zero component of a normal can show in its flux. The refutation for hexahedra computes both runs of two boxes with the tables of order zero as the code computes them (tables_ok) and shows the two results, (1 - 2^-52)/8 and (1 - 2^-51)/8. Non-vacuity: C98_demo (four quadrilaterals, one and three ranks, five RK4 steps)."
  },
  {
   "property": "C99",
   "status": "proved",
   "theorems": [
    "C99_renumbered",
    "C99_quadrilaterals",
    "C99_nan_refuted"
   ],
   "note": "Over ArithModel.v, as C97 and C98. A NaN in a flux stays in the coefficients of its element until the end (march_clean), so the assumption is only about the final states. The Lax-Friedrichs function takes the larger wave speed as 'if (a < aR) a = aR': a NaN on the right is ignored and one on the left is kept, which is what C99_nan_refuted shows at the level of runs. HLLC with exchanged sides is not symmetric (C32, C93). Non-vacuity: C99_demo (four quadrilaterals renumbered, sides of two faces exchanged, one and two ranks)."
  },
  {
   "property": "C100",
   "status": "partial",
   "theorems": [
    "C100_vortex3_travels_partial",
    "C100_vortex3_exact_refuted"
   ],
   "note": "The carried state solves the equations and starts from the initial condition (proved). False of the code: the function for the exact solution ignores its time argument (functions.cpp 147-191: 'For now we assume that we compare this to the exact solution after 1 period'); what it returns violates the mass equation at every time and every point off the plane x = 1/2, and differs from the carried vortex at every time but 0."
  },
  {
   "property": "C101",
   "status": "proved",
   "theorems": [
    "C101_positive_quads",
    "C101_positive_hexahedra",
    "C101_program_quads",
    "C101_program_hexahedra"
   ],
   "note": "Over the reals. The CFL condition (cfl_by, hllc_speed) uses the textbook wave speeds wave_L, wave_R of PhysSpec, which the code's flux is proved to use (C51), and is assumed of the states the run passes through. hllc_left and hllc_right (HllcPositive.v) treat every branch of the flux; they do not need the contact wave to lie between the outer waves, which the estimates in the code do not ensure (C101_contact_overtakes). Areas, lengths and volumes as in C96. Non-vacuity: C101_demo, C101_hexahedra_demo (one and two ranks)."
  },
  {
   "property": "C102",
   "status": "proved",
   "theorems": [
    "C102_rest_evaluates",
    "C102_rest_quads",
    "C102_rest_evaluates_hexahedra",
    "C102_rest_hexahedra",
    "C102_lax_friedrichs_diffuses",
    "C102_lax_friedrichs_diffuses_hexahedra"
   ],
   "note": "Over the reals. at_rest and still state the property from the basis functions and the coefficients the ranks hold. boundary_zero is what the code's zero-initialised flux arrays give (C80). The Lax-Friedrichs theorems weigh the residual with the coefficients of the function 1, i.e. they speak of the time derivative of the mass of the element. Non-vacuity: C102_demo (closed mesh of four quadrilaterals, order two, three ranks, one light element; both fluxes)."
  },
  {
   "property": "C103",
   "status": "proved",
   "theorems": [
    "C103_solution_quads",
    "C103_solution_hexahedra",
    "C103_program_quads",
    "C103_program_hexahedra",
    "C103_vortex3"
   ],
   "note": "Over the reals. repeats and field_repeats (PropSymmetry.v) state the symmetry from the mesh file's nodes and face rows and the map from reference to physical coordinates. Proof: a symmetry is a renumbering of the mesh onto itself (C93) whose elements are translated. Non-vacuity: C103_demo (four cubes closed in y, the 3D vortex, one and two ranks: the program runs and the two rows get the same coefficients), C103_quads_demo."
  },
  {
   "property": "C104",
   "status": "proved",
   "theorems": [
    "C104_solution_quads",
    "C104_solution_hexahedra",
    "C104_program_quads",
    "C104_program_hexahedra"
   ],
   "note": "Over the reals. within, evaluations, same_near and same_start (PropLocal.v) state distance, number of evaluations and the correspondence from the mesh files' nodes and face rows. The Jacobians may depend on the location of an element only by translation. Non-vacuity: C104_demo (a strip of five squares against one of four: the program runs on both and the elements away from the difference get the same coefficients), C104_hexahedra_demo."
  },
  {
   "property": "C105",
   "status": "proved",
   "theorems": [
    "C105_solution_quads",
    "C105_solution_hexahedra",
    "C105_program_quads",
    "C105_program_hexahedra"
   ],
   "note": "Over the reals. C105_demo: two squares in a supersonic wind (HLLC, order 0) meet every hypothesis, with a closed form for the exact solution. solves_ode, smooth_along (Converge.v) and exact_in_time (PropConverge.v) state the exact solution in time and its smoothness: three derivatives with a fourth-order remainder, bounded uniformly along the solution, and a Lipschitz constant in a tube around it; nothing is assumed outside the tube. Existence of such a solution is assumed, not proved (where max and abs in the fluxes switch, the right-hand side is not smooth). Order conditions for nonlinear systems, not only linear ones as in C26. C105_ode_demo: a nonlinear system that meets the hypotheses."
  },
  {
   "property": "C106",
   "status": "proved",
   "theorems": [
    "C106_good_quads",
    "C106_solution_quads",
    "C106_program_quads",
    "C106_good_hexahedra",
    "C106_solution_hexahedra",
    "C106_program_hexahedra"
   ],
   "note": "Over the reals; quadrilaterals and flat-faced hexahedra. relisted, quarter and value (PropCorner.v), relisted3 and spins (PropCornerHex.v) state the relisting from the mesh files' nodes and face rows and the solution from the basis functions; the coefficients themselves differ (permuted for Lagrange, permuted and with signs for Legendre bases). Uses that the tabulated rules are exactly symmetric. The projection's rule is symmetric too, so no quadrature error enters. Non-vacuity: C106_demo (three of the four quadrilaterals of C71 listed from another corner on, one and two ranks); C106_hexahedra_demo (three of the four cubes listed after turns of the cube)."
  },
  {
   "property": "C107",
   "status": "proved",
   "theorems": [
    "C107_quads_exists",
    "C107_hexahedra_exist",
    "C107_quads_unique",
    "C107_hexahedra_unique",
    "C107_good_quads",
    "C107_solution_quads",
    "C107_program_quads",
    "C107_demo",
    "C107_good_hexahedra",
    "C107_solution_hexahedra",
    "C107_program_hexahedra",
    "C107_hexahedra_demo"
   ],
   "note": "Over the reals. written_again (PropListing.v) states from the two files' nodes and face rows that the second describes the first mesh: any permutation of elements and faces, any first corner per element, sides of faces exchanged at will; nodes are compared by coordinates. Existence: the mass matrices invert and every function has a projection. For hexahedra (PropListingHex.v, written_again3) the rotations of the cube are given as words in two quarter turns, and the face rows are any that name the same faces with matching orientations; HLLC with exchanged sides needs the condition of C93 (C93 shows why). Non-vacuity: C107_demo (the four quadrilaterals of C71 counted backwards with all sides exchanged and three elements turned, programs on one and two ranks) and C107_hexahedra_demo (the four cubes counted backwards, all sides exchanged, three cubes turned)."
  }
 ]
}