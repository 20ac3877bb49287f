{"id": "C01", "title": "Every element is owned by exactly one rank", "statement": "After the mesh has been partitioned over the ranks, every global element appears in the element table of exactly one rank, exactly once, and the per-rank element counts add up to the global element count.", "quantifier": "every mesh, every number of ranks, every assignment of elements to ranks METIS may return", "why_tests_cant": "METIS may return any assignment; a test sees one assignment of one small mesh", "anchors": ["src/mesh/mesh.cpp:Mesh::partition (lines 283-288, 368-382)"]}
{"id": "C02", "title": "Global/local ID lookups are inverse to each other", "statement": "On every rank, converting a local element, node or face ID to a global ID and back returns the same local ID; converting a global ID the rank holds to local and back returns it; and a global ID the rank does not hold is reported as UINT_MAX and only then.", "quantifier": "every rank, every ID of every partitioned mesh", "why_tests_cant": "needs every ID on every rank of every partition", "anchors": ["src/mesh/mesh.cpp:search_for_local_ID", "src/mesh/mesh.cpp:h_get_local_elem_ID, h_get_global_elem_ID (and node/iface variants)"]}
{"id": "C03", "title": "Local connectivity describes the same elements as the global mesh", "statement": "For each element a rank owns, mapping its local node IDs back to global IDs gives the node list of that element in the mesh file in the same order, the stored local coordinates equal the coordinates in the file, and the rank stores exactly the nodes its elements use, in increasing order, without duplicates.", "quantifier": "every mesh connectivity, coordinates, partition and rank", "why_tests_cant": "depends on the set of shared nodes created by each possible partition", "anchors": ["src/mesh/mesh.cpp:Mesh::partition (lines 290-308, 368-396)"]}
{"id": "C04", "title": "An interior face is stored on exactly the ranks of its two elements", "statement": "Each interior face appears once on the rank of its left element and once on the rank of its right element (once in all when they coincide) and on no other rank; its stored row holds the two owning ranks, the local element IDs of the elements this rank owns (UINT_MAX for a remote one) and the reference-face IDs and orientations of the file.", "quantifier": "every mesh, face list, partition and rank", "why_tests_cant": "face sharing depends on the partition", "anchors": ["src/mesh/mesh.cpp:Mesh::partition (lines 310-341, 398-429)"]}
{"id": "C05", "title": "Partitioning never touches memory out of bounds", "statement": "For every well-formed mesh file and every assignment of elements to the ranks, all array reads and writes made while building the partitioned tables are inside the arrays they were sized for, and no uninitialised index is used.", "quantifier": "every mesh, partition and rank", "why_tests_cant": "counts and fills are separate loops; they must agree for every partition", "anchors": ["src/mesh/mesh.cpp:Mesh::partition (lines 283-525)"]}
{"id": "C06", "title": "Neighbour ranks are symmetric and exact", "statement": "The neighbour list of a rank has no duplicates, does not contain the rank itself, contains rank s exactly when some face joins an element of this rank to an element of s, and r is a neighbour of s exactly when s is a neighbour of r.", "quantifier": "every mesh, partition and pair of ranks, every iteration order of the hash set", "why_tests_cant": "the order of an unordered_set and the partition are both arbitrary", "anchors": ["src/mesh/mesh.cpp:Mesh::partition (lines 311-341, 361-366)"]}
{"id": "C07", "title": "Both sides of a rank boundary list the same faces in the same order", "statement": "For neighbouring ranks r and s, the ghost-face list r keeps for s equals the list s keeps for r, element by element; it contains exactly the faces joining r and s; and the number of ghost faces of a rank is the sum of the lengths of its lists.", "quantifier": "every mesh, partition and pair of neighbouring ranks", "why_tests_cant": "exchange correctness relies on equal order on two independently computed sides", "anchors": ["src/mesh/mesh.cpp:Mesh::partition (lines 431-525)"]}
{"id": "C08", "title": "The diagnostic print at the end of partitioning stays inside the face table", "statement": "Partitioning prints the first three rows of the face table; this must not read past the table on any rank.", "quantifier": "every mesh, partition and rank", "why_tests_cant": "the bundled tests use ranks with at least three faces", "anchors": ["src/mesh/mesh.cpp:Mesh::partition (lines 539-546)"]}
{"id": "C09", "title": "Any requested number of partitions is handled", "statement": "The number of partitions can be set independently of the number of ranks without touching memory out of bounds or losing elements.", "quantifier": "every number of partitions and ranks", "why_tests_cant": "only equal numbers are tested", "anchors": ["src/mesh/mesh.cpp:Mesh::Mesh (lines 37-43)", "src/mesh/mesh.cpp:Mesh::partition (lines 284-341)"]}
{"id": "C10", "title": "The element-to-face table read from the file is the inverse of the face-to-element table", "statement": "After reading a mesh, the faces recorded for an element are exactly the faces of the file that have that element on one of their sides, in file order, and the count recorded equals their number.", "quantifier": "every mesh file", "why_tests_cant": "a test checks a few elements of one file", "anchors": ["src/mesh/mesh.cpp:Mesh::read_mesh (lines 143-160)"]}
{"id": "C11", "title": "Boundary faces get consecutive numbers and correct reverse references", "statement": "Reading the boundary groups numbers all boundary faces consecutively in group order, keeps each face's data, and records for every element exactly the numbers of the boundary faces attached to it.", "quantifier": "every list of boundary groups and boundary faces", "why_tests_cant": "group structure is arbitrary", "anchors": ["src/mesh/mesh.cpp:Mesh::read_mesh (lines 169-203)"]}
{"id": "C12", "title": "The face exchange delivers the neighbour's values", "statement": "When communicate_face_solution has finished on all ranks, the remote side of every ghost face on every rank holds the values its owner had at entry, and nothing else in the two state arrays has changed.", "quantifier": "every partitioned mesh, every state, every interleaving of the ranks and every delivery time of messages", "why_tests_cant": "message timing and rank interleavings cannot be enumerated by running", "anchors": ["src/memory/memory_network.cpp:MemoryNetwork::communicate_face_solution"]}
{"id": "C13", "title": "The face exchange never deadlocks and always finishes", "statement": "From every reachable global state some rank can proceed until all ranks have finished, and every execution finishes after a bounded number of steps.", "quantifier": "every partitioned mesh and every schedule", "why_tests_cant": "absence of deadlock is a property of all schedules", "anchors": ["src/memory/memory_network.cpp:MemoryNetwork::communicate_face_solution (lines 102-139)"]}
{"id": "C14", "title": "Consecutive exchanges do not mix", "statement": "Over any number of consecutive exchanges (one per residual evaluation), each receive obtains the message of its own round, and no send buffer is overwritten while its message is still in flight, although the send requests are never waited on (host memory).", "quantifier": "every number of rounds, every schedule, data copied out of the send buffer at any time before it is received", "why_tests_cant": "the race window depends on MPI progress", "anchors": ["src/memory/memory_network.cpp:MemoryNetwork::communicate_face_solution"]}
{"id": "C15", "title": "Send buffers stay alive until the message is received (device build)", "statement": "The buffer handed to a non-blocking send stays allocated until the message has been received, also when the state lives in device memory and a host copy is sent.", "quantifier": "every schedule", "why_tests_cant": "depends on when MPI reads the buffer", "anchors": ["src/memory/memory_network.cpp:MemoryNetwork::communicate_face_solution (lines 106-120)"]}
{"id": "C16", "title": "Ranks print in rank order", "statement": "The collective print functions let the ranks emit their blocks in increasing rank order, each exactly once, between the header and footer of the head rank.", "quantifier": "every number of ranks and every schedule", "why_tests_cant": "interleavings", "anchors": ["src/memory/memory_network.cpp:MemoryNetwork::print, print_view"]}
{"id": "C17", "title": "Quadrilateral face point order", "statement": "For both orientations the point order computed for a face is a permutation of the face points, and reordering by it gives the position the oriented face has at each point; an unknown orientation leaves the order unset.", "quantifier": "every number of points and every symmetric point set", "why_tests_cant": "sizes unbounded", "anchors": ["src/numerics/basis/shape.cpp:get_face_pts_order_wrt_orient0_quadrilateral", "src/numerics/basis/shape.cpp:get_points_on_face_quadrilateral"]}
{"id": "C18", "title": "Hexahedron face point order", "statement": "For all eight orientations the point order computed for a face is a permutation of the face points, and reordering by it gives the position the oriented face has at each point.", "quantifier": "every number of points per direction, every symmetric tensor point set, every face and orientation", "why_tests_cant": "sizes unbounded, eight orientations, six faces", "anchors": ["src/numerics/basis/shape.cpp:get_face_pts_order_wrt_orient0_hexahedron", "src/numerics/basis/shape.cpp:get_points_on_face_hexahedron"]}
{"id": "C19", "title": "Face points of an oriented face are on that face", "statement": "For every face and orientation the points computed lie on the corresponding face of the reference element, and corner points are mapped to the face's corner nodes in the order of that orientation.", "quantifier": "every face point", "why_tests_cant": "continuum of points", "anchors": ["src/numerics/basis/shape.cpp:get_points_on_face_quadrilateral", "src/numerics/basis/shape.cpp:get_points_on_face_hexahedron"]}
{"id": "C20", "title": "Local nodes on a face", "statement": "The node numbers listed for each face of an element of any geometric order are in range, distinct, and are exactly the nodes located on that face of the reference element, in face-point order.", "quantifier": "every geometric order and face", "why_tests_cant": "order unbounded", "anchors": ["src/numerics/basis/shape.cpp:get_local_nodes_on_face_quadrilateral", "src/numerics/basis/shape.cpp:get_local_nodes_on_face_hexahedron"]}
{"id": "C21", "title": "Face normals of a straight-sided quadrilateral point outward and close up", "statement": "For a straight-sided quadrilateral the integrated normals of its four faces are the outward perpendiculars of its edges, they sum to zero, and the normals computed from the left element are minus those computed from the right element of a shared face.", "quantifier": "every quadrilateral", "why_tests_cant": "continuum of shapes", "anchors": ["src/numerics/basis/shape.cpp:get_normals_on_face_quadrilateral"]}
{"id": "C22", "title": "Face normals of a hexahedron are evaluated at the face quadrature points", "statement": "The normal stored for quadrature point q of a hexahedron face is the normal of the (bilinear) face at that point.", "quantifier": "every bilinear face and every point", "why_tests_cant": "only visible on non-parallelogram faces", "anchors": ["src/numerics/basis/shape.cpp:get_normals_on_face_hexahedron", "src/numerics/basis/basis.cpp:get_face_basis_ref_grad_for_normals"]}
{"id": "C23", "title": "Face residual storage is race free", "statement": "In a well-formed mesh no two face points write the same slot of the per-element face flux buffer, and both elements of an interior face receive the same flux with opposite sign.", "quantifier": "every well-formed mesh and face quadrature", "why_tests_cant": "parallel kernel; races are schedule dependent", "anchors": ["src/solver/base.cpp:construct_flux_state", "src/solver/helpers.cpp:precompute_facequadrature_lookup"]}
{"id": "C24", "title": "The face terms conserve every state variable", "statement": "Summed over all elements, the face contributions tested against the constant function cancel for every state and every numerical flux.", "quantifier": "every mesh, state and flux function", "why_tests_cant": "must hold for all fluxes", "anchors": ["src/solver/base.cpp:construct_flux_state", "src/solver/base.cpp:get_interior_face_residuals", "src/solver/tools.cpp:calculate_face_flux_integral"]}
{"id": "C25", "title": "Time steppers implement forward Euler and classical RK4", "statement": "One forward-Euler step returns U + dt R(U); one RK4 step returns U + (dt/6)(k1+2k2+2k3+k4) with the classical stages; the time advances by dt per step and the stages are evaluated at t, t+dt/2, t+dt/2, t+dt.", "quantifier": "every right-hand side, time, step and state of fewer than 2^32 coefficients per rank", "why_tests_cant": "functional identity", "anchors": ["src/numerics/timestepping/stepper.cpp:FE::take_time_step", "src/numerics/timestepping/stepper.cpp:RK4::take_time_step"]}
{"id": "C26", "title": "RK4 is fourth-order on linear problems", "statement": "For a linear right-hand side the RK4 step is the degree-4 Taylor polynomial of the exponential.", "quantifier": "every linear operator and step", "why_tests_cant": "an identity of polynomials", "anchors": ["src/numerics/timestepping/stepper.cpp:RK4::take_time_step"]}
{"id": "C27", "title": "The solver takes the number of steps that reaches the final time", "statement": "When the final time is an exact multiple n of the step, as numbers in double precision, the solver takes n steps.", "quantifier": "every pair of doubles that are exact multiples, n below 2^31", "why_tests_cant": "depends on floating-point rounding", "anchors": ["src/solver/base.cpp:Solver::solve"]}
{"id": "C28", "title": "Small matrix inversion", "statement": "For 1x1, 2x2 and 3x3 matrices with non-zero determinant invA returns the inverse (both products are the identity).", "quantifier": "every matrix", "why_tests_cant": "continuum", "anchors": ["src/math/linear_algebra.cpp:invA", "src/math/linear_algebra.cpp:det"]}
{"id": "C29", "title": "Identity fills a matrix with the identity", "statement": "identity(mat) makes mat the identity matrix whatever it contained.", "quantifier": "every matrix content and size", "why_tests_cant": "scratch memory is uninitialised", "anchors": ["src/math/linear_algebra.cpp:identity"]}
{"id": "C30", "title": "Vector and matrix kernels", "statement": "dot, cross, scaling, addition and the matrix products compute the textbook results (cross product orthogonal to both factors, product formulas for every size), and change nothing else.", "quantifier": "every size and content", "why_tests_cant": "sizes unbounded", "anchors": ["src/math/linear_algebra.cpp"]}
{"id": "C31", "title": "Lagrange basis is nodal and sums to one", "statement": "At node j the i-th one-dimensional Lagrange basis function is 1 if i=j and 0 otherwise; the functions sum to one at every point; and every polynomial up to the basis order is reproduced by interpolation.", "quantifier": "every order, distinct node set and point", "why_tests_cant": "continuum of points and all orders", "anchors": ["src/numerics/basis/tools.cpp:get_lagrange_basis_val_1D"]}
{"id": "C32", "title": "Lagrange gradients are the derivatives of the values", "statement": "The computed gradient is the derivative of the computed value and the gradients sum to zero.", "quantifier": "every order, node set and point", "why_tests_cant": "continuum", "anchors": ["src/numerics/basis/tools.cpp:get_lagrange_basis_grad_1D"]}
{"id": "C33", "title": "Tensor-product bases", "statement": "The two- and three-dimensional basis functions are the products of the one-dimensional functions with index i + (p+1) j + (p+1)^2 k, each index written exactly once, nodal for Lagrange, and gradients are the partial derivatives.", "quantifier": "every order and point", "why_tests_cant": "sizes unbounded", "anchors": ["src/numerics/basis/tools.cpp:get_lagrange_basis_val_2D, _3D, _grad_2D, _grad_3D, get_legendre_basis_val_1D, get_legendre_basis_grad_1D"]}
{"id": "C34", "title": "Legendre basis", "statement": "For orders up to 7 the values are the Legendre polynomials (three-term recurrence, orthogonal on [-1,1]) and the gradients their derivatives.", "quantifier": "every supported order and point", "why_tests_cant": "continuum", "anchors": ["src/numerics/basis/tools.cpp:get_legendre_basis_val_1D, get_legendre_basis_grad_1D"]}
{"id": "C35", "title": "Every accepted Legendre order is evaluated completely", "statement": "For every order the program accepts, all p+1 basis values are set.", "quantifier": "every order", "why_tests_cant": "tests use small orders", "anchors": ["src/numerics/basis/tools.cpp:get_legendre_basis_val_1D"]}
{"id": "C36", "title": "Gauss-Legendre tables", "statement": "For every order 0..49 the rule has ceil((order+1)/2) points inside (-1,1), increasing and symmetric, positive weights, and integrates every polynomial of degree at most the order to the accuracy of the tabulated digits.", "quantifier": "every order of the table and every polynomial", "why_tests_cant": "all polynomials", "anchors": ["src/numerics/quadrature/segment.cpp:get_segment_weights_gl", "src/numerics/nodes.cpp:get_gauss_legendre_segment_nodes", "src/numerics/numerics_data.cpp:get_num_quad_1d"]}
{"id": "C37", "title": "Every accepted quadrature order is tabulated", "statement": "For every quadrature order the program derives from an accepted solution order the points and weights are set.", "quantifier": "every solution order", "why_tests_cant": "tests use small orders", "anchors": ["src/numerics/quadrature/tools.cpp", "src/numerics/quadrature/segment.cpp", "src/numerics/quadrature/quadrilateral.cpp", "src/numerics/quadrature/hexahedron.cpp"]}
{"id": "C38", "title": "Tensor quadrature", "statement": "The quadrilateral and hexahedron rules use every combination of one-dimensional points once with the product of the weights; an integral of a product is the product of the one-dimensional integrals.", "quantifier": "every number of points and every rule", "why_tests_cant": "sizes unbounded", "anchors": ["src/numerics/quadrature/quadrilateral.cpp", "src/numerics/quadrature/hexahedron.cpp"]}
{"id": "C39", "title": "Equidistant nodes", "statement": "The equidistant nodes of order p start at -1, end at 1 and are evenly spaced and distinct; the 2D and 3D nodes enumerate all tensor combinations once; order 0 gives the centre.", "quantifier": "every order", "why_tests_cant": "unbounded", "anchors": ["src/numerics/nodes.cpp", "src/numerics/basis/tools.cpp:equidistant_nodes_1D_range"]}
{"id": "C40", "title": "Parallel dataset round trip", "statement": "Data written by all ranks as a parallel dataset and read back by the same number of ranks returns to every rank exactly what it wrote, with the same dimensions; the ranks' blocks do not overlap and fill the file dataset.", "quantifier": "every number of ranks, every per-rank shape and data", "why_tests_cant": "per-rank shapes unbounded", "anchors": ["src/io/HDF5Wrapper.h:write_parallel_dataset, read_parallel_dataset"]}
{"id": "C41", "title": "Rank-count mismatch is rejected", "statement": "Reading a parallel dataset with a different number of ranks than it was written with is refused.", "quantifier": "every pair of rank counts", "why_tests_cant": "all counts", "anchors": ["src/io/HDF5Wrapper.h:read dims", "src/io/reader.h:Reader"]}
{"id": "C42", "title": "Restart coefficients round trip", "statement": "Solution coefficients written by the writer and read by the solver are the same array, for both memory layouts.", "quantifier": "every number of elements, basis functions and states", "why_tests_cant": "index formulas for all sizes", "anchors": ["src/solver/base.cpp:read_in_coefficients", "src/io/writer.cpp"]}
{"id": "C43", "title": "Restart restores the time", "statement": "After reading a solution file the solver time is the time stored in the file.", "quantifier": "every stored time", "why_tests_cant": "state restoration", "anchors": ["src/solver/base.cpp:read_in_coefficients", "src/post/main.cpp:get_error"]}
{"id": "C44", "title": "Serialising a parallel solution puts every element at its global position", "statement": "Converting a parallel solution to a serial one stores for each global element ID the node list and coefficients of that element, and each global node once with its coordinates.", "quantifier": "every number of ranks and every distribution of elements", "why_tests_cant": "distributions unbounded", "anchors": ["src/io/reader.h:Reader", "src/io/writer.cpp:Writer"]}
{"id": "C45", "title": "Common-element test", "statement": "have_common_element on two sorted ranges is true exactly when they share an element.", "quantifier": "every pair of sorted ranges", "why_tests_cant": "all ranges", "anchors": ["src/utils/utils.h:have_common_element"]}
{"id": "C46", "title": "Output file names identify the iteration", "statement": "Distinct iteration numbers (and distinct sub-region numbers) give distinct output file names.", "quantifier": "every iteration and prefix", "why_tests_cant": "unbounded numbers", "anchors": ["src/utils/utils.cpp:get_fname_with_iter, get_fname_with_iter_srID"]}
{"id": "C47", "title": "Command-line options", "statement": "exist_option is true exactly when the option is present; get_option returns the following argument, or nothing when the option is last or absent, and the program does not use a missing value.", "quantifier": "every argument list", "why_tests_cant": "all lists", "anchors": ["src/utils/utils.cpp:get_option, exist_option", "src/exec/main.cpp"]}
{"id": "C48", "title": "Enum names round trip", "statement": "Every enumerator converts to its name and back to itself, distinct enumerators have distinct names, and every other string is rejected.", "quantifier": "every string", "why_tests_cant": "all strings", "anchors": ["src/common/enums.h:enum_to_string, enum_from_string"]}
{"id": "C49", "title": "Lax-Friedrichs flux", "statement": "For admissible states the flux of equal states is the physical flux in the normal direction, swapping the states and reversing the normal negates the flux, and scaling the normal scales the flux; it does not depend on anything else.", "quantifier": "every admissible pair of states, every non-zero normal, 2D and 3D", "why_tests_cant": "continuum of states", "anchors": ["src/physics/base/functions.cpp:compute_flux_laxfriedrichs"]}
{"id": "C50", "title": "HLLC flux consistency", "statement": "For admissible equal states the HLLC flux is the physical flux in the normal direction.", "quantifier": "every admissible state and non-zero normal, 2D and 3D", "why_tests_cant": "continuum of states", "anchors": ["src/physics/euler/functions.cpp:compute_flux_hllc"]}
{"id": "C51", "title": "HLLC always selects a flux", "statement": "For admissible states exactly one branch is taken, no division by zero occurs and the error branch is unreachable.", "quantifier": "every admissible pair of states", "why_tests_cant": "continuum of states", "anchors": ["src/physics/euler/functions.cpp:compute_flux_hllc"]}
{"id": "C52", "title": "HLLC is conservative under exchange of sides", "statement": "Swapping the states and reversing the normal negates the HLLC flux.", "quantifier": "every admissible pair of states and non-zero normal", "why_tests_cant": "continuum of states; fails only for strong collisions", "anchors": ["src/physics/euler/functions.cpp:compute_flux_hllc"]}
{"id": "C53", "title": "HLLC keeps stationary contacts", "statement": "For equal pressures and zero velocity on both sides the HLLC flux is the pressure force only, whatever the densities.", "quantifier": "every pair of densities, pressure and normal", "why_tests_cant": "continuum", "anchors": ["src/physics/euler/functions.cpp:compute_flux_hllc"]}
{"id": "C54", "title": "Euler state functions", "statement": "Pressure, sound speed and the physical flux are those of an ideal gas; the max wave speed bounds the normal velocity plus sound speed in every direction; a state built from primitive variables has that pressure.", "quantifier": "every admissible state and direction", "why_tests_cant": "continuum", "anchors": ["src/physics/euler/functions.cpp:get_pressure, get_maxwavespeed, conv_flux_interior"]}
{"id": "C55", "title": "Isentropic vortex initial condition", "statement": "The 2D vortex state has density and pressure with the constant entropy of the base flow, tends to the base flow when the vortex strength is zero, and is the initial state advected with the base velocity.", "quantifier": "every point, time and parameter set", "why_tests_cant": "continuum", "anchors": ["src/physics/euler/functions.cpp:set_state_isentropic_vortex"]}
{"id": "C56", "title": "L2 projection reproduces polynomials", "statement": "If the stored inverse mass matrix is the inverse of the quadrature mass matrix, projecting a state that lies in the discrete space returns its coefficients.", "quantifier": "every basis, quadrature and coefficient set", "why_tests_cant": "continuum", "anchors": ["src/solver/tools.cpp:L2_projection", "src/solver/helpers.cpp:compute_inv_mass_matrices"]}
{"id": "C57", "title": "Volume and face integrals are linear and complete", "statement": "The volume and face residual kernels add, for every basis function and state, the full quadrature sum exactly once and leave other entries unchanged.", "quantifier": "every size and content", "why_tests_cant": "sizes unbounded", "anchors": ["src/solver/tools.cpp:calculate_volume_flux_integral, calculate_face_flux_integral, mult_inv_mass_matrix"]}
{"id": "C58", "title": "Basis and quadrature sizes agree", "statement": "The numbers of basis functions, nodes and quadrature points computed by the different parts of the code agree for every order and shape, and every quadrature rule gets the number of points its order needs.", "quantifier": "every order", "why_tests_cant": "unbounded", "anchors": ["src/numerics/numerics_data.cpp", "src/numerics/basis/shape.cpp", "src/numerics/quadrature/tools.cpp"]}
{"id": "C59", "title": "Inversion of larger matrices", "statement": "For a symmetric positive definite matrix of any size above three (a mass matrix) invA returns the two-sided inverse, provided the off-diagonal entries of the output were zero; no division by zero occurs.", "quantifier": "every size and every symmetric positive definite matrix", "why_tests_cant": "sizes and contents unbounded", "anchors": ["src/math/linear_algebra.cpp:invA", "src/solver/helpers.cpp:compute_inv_mass_matrices"]}
{"id": "C60", "title": "Face normals belong to the points the states are taken at", "statement": "The normal stored for a face quadrature point is the normal of the face at the position where the two states of that point are evaluated, whichever of the two elements it is computed from and whatever the orientation of the face.", "quantifier": "every shared face, orientation and geometric order", "why_tests_cant": "needs all curved faces and all orientations; on a single rank or with straight faces a test sees no difference", "anchors": ["src/solver/helpers.cpp: InteriorFaceHelperFunctor::precompute_normals", "src/numerics/basis/shape.cpp: get_normals_on_face"]}
{"id": "C61", "title": "Both sides of a face evaluate their states at the same physical points", "statement": "If the two elements of a face place the face's geometric nodes at the same positions (each in the orientation stored for it), then for every face quadrature point the two sides evaluate their solution at the same physical position.", "quantifier": "every geometric order, pair of faces, pair of orientations and symmetric point set", "why_tests_cant": "quantifies over all orders, faces, orientations and element shapes", "anchors": ["src/solver/helpers.cpp: precompute_facequadrature_lookup", "src/solver/base.cpp: construct_face_states", "src/numerics/basis/shape.cpp: get_face_pts_order_wrt_orient0"]}
{"id": "C62", "title": "The vortex used for error norms solves the Euler equations", "statement": "For gas constant 1 and a vortex weak enough for the temperature to stay positive, the 2D state returned as exact solution satisfies the four Euler conservation laws at every point and time.", "quantifier": "every parameter set, point and time", "why_tests_cant": "a statement about partial derivatives at every point and time; a test compares values at a few points", "anchors": ["src/physics/euler/functions.cpp:set_state_isentropic_vortex", "src/physics/base/base.cpp:call_exact_solution"]}
{"id": "C63", "title": "Initial conditions give admissible gas states", "statement": "Every initial condition that can be selected in the input sets a state with positive density and pressure (given admissible input data).", "quantifier": "every initial condition name, dimension, parameter set and point", "why_tests_cant": "quantifies over all points and parameters", "anchors": ["src/physics/base/base.cpp:call_IC, set_smooth_sphere, set_gaussian_state_2D, set_state_uniform", "src/physics/euler/functions.cpp:set_state_isentropic_vortex"]}
{"id": "C64", "title": "Residual evaluation on any number of ranks sees the right traces", "statement": "If the states of all elements are admissible at their quadrature points, a residual evaluation by all ranks succeeds (no failed access or arithmetic), and on every rank that stores a face the left and right states at each face point are the traces of the two adjacent elements' polynomials at that point, whichever ranks own the elements.", "quantifier": "every mesh, partition, loop order, state and numerical flux", "why_tests_cant": "spans partitioning, gather, exchange and flux kernels for all partitions and schedules", "anchors": ["src/solver/base.cpp: get_interior_face_residuals, construct_face_states", "src/solver/helpers.cpp: precompute_facequadrature_lookup", "src/solver/flux_functors_impl.h"]}
{"id": "C65", "title": "Mass, momentum and energy are conserved by the time stepping", "statement": "Over any number of forward-Euler or RK4 steps on any number of ranks the quadrature integrals of all conserved variables over the domain stay what they were, as long as every flux evaluation meets admissible states (the code applies no boundary fluxes).", "quantifier": "every mesh, partition, number of steps, step sizes, loop orders, schedules and states", "why_tests_cant": "a global invariant over all ranks and all time steps", "anchors": ["src/numerics/timestepping/stepper.cpp", "src/solver/base.cpp: get_residual", "src/solver/helpers.cpp: compute_inv_mass_matrices"]}
{"id": "C66", "title": "Decimal step and end time in the input file", "statement": "When the end time written in the input file is n times the time step written there, the solver takes n steps.", "quantifier": "every pair of decimal numbers", "why_tests_cant": "depends on how two decimals round to doubles and on the rounding of their quotient; most pairs work", "anchors": ["src/solver/base.cpp: solve (line 383)", "src/solver/base.cpp: Solver (lines 54-57)"]}
{"id": "C67", "title": "A basis name accepted in the input file works", "statement": "Every basis name that the input processing accepts leads to a usable basis object, and every basis the code implements is accepted.", "quantifier": "every basis name and order", "why_tests_cant": "a matrix of all names over two independently written switch statements", "anchors": ["src/numerics/numerics_data.cpp: NumericsParams, get_num_bases", "src/numerics/basis/basis.cpp: Basis"]}
{"id": "C68", "title": "Geometric tables of every rank describe its elements", "statement": "After the solver's setup on any rank, the tables hold, for every element the rank owns: the physical position of every volume quadrature point, the derivative of the element's mapping there, its (positive) determinant, its inverse, the element volume, and the basis functions' values and gradients at Gauss-Legendre points inside the reference element with positive weights.", "quantifier": "every mesh of quadrilaterals or hexahedra that is not tangled, every partition, rank, order up to 11 and order of the parallel loops", "why_tests_cant": "spans partitioning, quadrature, basis and geometry for every mesh and order", "anchors": ["src/solver/helpers.cpp: compute_volume_helpers, compute_inv_mass_matrices", "src/mesh/tools.h", "src/numerics/basis/tools.h: get_element_jacobian"]}
{"id": "C69", "title": "Stored inverse mass matrices invert the elements' mass matrices", "statement": "The matrix stored as inverse mass matrix of an element is the two-sided inverse of the Gram matrix of the basis functions over that element under the code's quadrature rule.", "quantifier": "every untangled mesh, partition, rank, element and order up to 11", "why_tests_cant": "needs positive definiteness of every mass matrix, which no set of inputs shows", "anchors": ["src/solver/helpers.cpp: compute_inv_mass_matrices", "src/numerics/basis/tools.h: get_inv_mass_matrices"]}
{"id": "C70", "title": "Ranks set up compatible tables", "statement": "The tables that different ranks compute independently use the same face quadrature rule, point numbering, orderings and face basis values, and represent the constant function exactly.", "quantifier": "every untangled mesh, partition, number of ranks and order up to 11", "why_tests_cant": "a relation between the states of all ranks", "anchors": ["src/solver/helpers.cpp: precompute_facequadrature_lookup, FaceHelperFunctor", "src/solver/base.cpp: precompute_matrix_helpers"]}
{"id": "C71", "title": "Conservation from the mesh file to the end of the run", "statement": "On any mesh of convex straight-sided quadrilaterals, or of untangled hexahedra whose interior faces are parallelograms, whose faces join matching sides, partitioned in any way over any number of ranks, setup followed by any number of time steps conserves the integrals of mass, momentum and energy over the domain (no boundary flux is applied), as long as every flux evaluation meets admissible states.", "quantifier": "every such mesh, partition, order, time stepper, number of steps, schedule and initial state", "why_tests_cant": "end-to-end over setup, communication and time stepping; a test sees one mesh and one partition", "anchors": ["src/solver/base.cpp", "src/solver/helpers.cpp", "src/numerics/timestepping/stepper.cpp"]}
{"id": "C72", "title": "The mesh in memory is the mesh in the file", "statement": "For every readable mesh file the reader succeeds and what it stores is what the file says: sizes, node coordinates, element connectivity, the six entries of every interior face, the rows of the named boundary groups and their counts; the result meets the preconditions of partitioning.", "quantifier": "every mesh file with consistent sizes and IDs in range, every list of boundary names", "why_tests_cant": "index arithmetic for all sizes", "anchors": ["src/mesh/mesh.cpp: read_mesh"]}
{"id": "C73", "title": "The initial state is the projection of the initial condition", "statement": "After initialisation the coefficients of every element are the quadrature L2 projection of the selected initial condition on the solution space: the difference is orthogonal to every basis function, no other coefficients are closer (order >= 1), and a uniform initial condition is reproduced exactly at every point.", "quantifier": "every untangled mesh, partition, rank, order up to 11, initial condition defined everywhere, order of the parallel loops and previous memory content", "why_tests_cant": "quantifies over meshes, orders and initial data; a minimum over all coefficient sets", "anchors": ["src/solver/base.cpp: init_state_from_fcn", "src/solver/tools.cpp: L2_projection", "src/physics/base/base.cpp: call_IC"]}
{"id": "C74", "title": "The printed error is the distance to the exact solution, on any number of ranks", "statement": "For every state variable the error the post-processing program prints is the square root of the integral over the whole mesh (by the program's quadrature) of the squared difference between the solution and the exact solution, divided by the volume of the mesh. It does not depend on how many ranks compute it, how the mesh was split or in which order the loops run.", "quantifier": "every untangled mesh, partition, number of ranks, order up to 11, solution coefficients, exact solution defined everywhere, loop orders", "why_tests_cant": "quantifies over meshes, partitions and schedules", "anchors": ["src/post/main.cpp: get_error", "src/solver/helpers.cpp: evaluate_state", "src/mesh/tools.cpp: get_total_volume", "src/memory/memory_network.cpp: allreduce"]}
{"id": "C75", "title": "Post-processing compares a stored solution with the exact solution at the stored time", "statement": "Run on a solution file, the post-processing program prints the distance between the stored solution and the exact solution at the time stored in the file.", "quantifier": "every mesh, partition, solution, stored time", "why_tests_cant": "quantifies over stored solutions and times; a test with a steady solution cannot see it", "anchors": ["src/post/main.cpp: run_post", "src/solver/base.cpp: read_in_coefficients, Solver::Solver", "src/physics/base/base.cpp: call_exact_solution"]}
{"id": "C76", "title": "Constructing a mesh splits it as METIS says", "statement": "Constructing the mesh reads the file and, with two or more ranks, gives every rank exactly the elements METIS assigned to it; with one rank METIS is not called and that rank gets every element. If METIS reports an error, construction throws on every rank. (On ranks with at least three faces; see C08 for the others.)", "quantifier": "every mesh file, number of ranks, METIS answer that leaves every rank at least three faces, hash-set iteration order", "why_tests_cant": "quantifies over meshes and oracle answers", "anchors": ["src/mesh/mesh.cpp: Mesh::Mesh, partition, read_mesh"]}
{"id": "C77", "title": "The residual is that of the discontinuous Galerkin scheme on the whole mesh", "statement": "If the ranks hold the coefficients of one solution on the mesh, the residual a rank computes for one of its elements is the element integral of flux times test gradient plus the numerical-flux integrals over the element's interior faces, with the traces of the two neighbouring elements of the mesh - wherever these live. On meshes of convex straight-sided quadrilaterals, and of hexahedra whose interior faces are parallelograms, the basis functions, Jacobians and normals are the exact ones of the mesh file.", "quantifier": "every mesh, partition, number of ranks, loop and message order, solution coefficients, order up to 11, flux, as long as every flux evaluation meets admissible states", "why_tests_cant": "a relation between the states of all ranks after communication, for all meshes and partitions", "anchors": ["src/solver/base.cpp: get_residual, get_element_residuals, get_interior_face_residuals", "src/solver/helpers.cpp", "src/memory/memory_network.cpp: communicate_face_solution"]}
{"id": "C78", "title": "The result does not depend on the partition or the number of ranks", "statement": "Two runs with the same mesh, order, initial condition, time stepper and steps, but with different numbers of ranks, partitions and schedules, end with the same coefficients on every element of the mesh: those the discontinuous Galerkin scheme with forward Euler or RK4 computes on the whole mesh.", "quantifier": "every mesh of convex straight-sided quadrilaterals or of hexahedra whose interior faces are parallelograms, every two partitions, rank counts, schedules, memory layouts, numbers of steps, orders up to 11", "why_tests_cant": "compares all pairs of runs", "anchors": ["src/solver/base.cpp", "src/numerics/timestepping/stepper.cpp: FE::take_time_step, RK4::take_time_step", "src/mesh/mesh.cpp"]}
{"id": "C79", "title": "The converted solution file does not depend on the number of ranks", "statement": "Saving the final solution and converting it with the converter gives one file, the same whatever the number of ranks, the partition, the order in which ranks write and the converter's loops run: nodes, elements and coefficients in the numbering of the mesh file. Two complete runs (set up, initialise, march, save, convert) of the same mesh on different numbers of ranks thus produce the same file.", "quantifier": "every mesh of convex straight-sided quadrilaterals or of hexahedra whose interior faces are parallelograms, whose nodes are all used, every two rank counts, partitions, schedules, write orders; datasets below 2^31 entries; row-major storage", "why_tests_cant": "compares all pairs of runs and write orders", "anchors": ["src/io/HDF5Wrapper.h", "src/io/writer.cpp", "src/io/reader.h", "src/converter/main.cpp", "src/solver/base.cpp"]}
{"id": "C80", "title": "A uniform flow stays uniform (free-stream preservation)", "statement": "From an admissible uniform state, held everywhere in the mesh, the residual can be evaluated and, in every element with a neighbour on each edge, is zero up to the error of the tabulated quadrature rules (below 2e-15 times the size of the element times the flux), whatever the basis, order, numerical flux and partition. The uniform initial condition produces such a state. In elements with an edge on the boundary of the mesh the user would expect the same; there the residual is the flux through those edges.", "quantifier": "every mesh of convex straight-sided quadrilaterals, periodic or not, every admissible state, basis, order up to 11, flux, partition and schedule", "why_tests_cant": "every mesh geometry and state; the discrete metric identities hold for all element shapes", "anchors": ["src/solver/base.cpp: get_residual, get_element_residuals, get_interior_face_residuals", "src/physics/euler/functions.cpp", "src/numerics/quadrature", "src/mesh/mesh.cpp"]}
{"id": "C81", "title": "No data race in a residual evaluation: every thread schedule gives the same result", "statement": "With any number of threads per team, any assignment of the iterations of the team loops to threads and any interleaving of the threads' loads and stores within and across teams, the device kernels of a residual evaluation and of the multiplication by the inverse mass matrices terminate without deadlock at a barrier and leave the values the sequential loops compute; nothing else in device memory changes.", "quantifier": "every mesh, partition, basis, order and state for which the residual can be evaluated, every team size, assignment of iterations to threads and interleaving of single memory accesses", "why_tests_cant": "the number of interleavings is astronomical and a race shows up rarely", "anchors": ["src/solver/base.cpp: get_residual, get_element_residuals, get_interior_face_residuals", "src/solver/helpers.cpp: evaluate_state", "src/solver/tools.cpp", "src/math/linear_algebra.cpp: TeamGemm wrappers"]}
{"id": "C82", "title": "No data race in the computation of the face normals", "statement": "With any number of threads per team and any interleaving, the kernel that computes the face normals during set-up terminates and leaves the normal of each face at each quadrature point.", "quantifier": "every face, element shape, number of quadrature points, coordinates, team size, assignment of iterations to threads and interleaving", "why_tests_cant": "the number of interleavings is astronomical and a race shows up rarely", "anchors": ["src/solver/helpers.cpp: InteriorFaceHelperFunctor::precompute_normals", "src/numerics/basis/shape.cpp: get_normals_on_face_quadrilateral, get_normals_on_face_hexahedron", "src/math/linear_algebra.cpp: cATxB_to_C, cA_to_A"]}
{"id": "C83", "title": "All ranks agree on the normals of a shared face", "statement": "Two ranks that hold the same interior face - one the element on its left, the other the element on its right - store the same normal at each quadrature point of that face: the outward normal of the left element, scaled by the surface element. Otherwise the two sides of a face would be charged different fluxes and mass, momentum and energy would not be conserved across ranks.", "quantifier": "every conforming mesh of quadrilaterals or hexahedra, every partition, basis and order up to 11", "why_tests_cant": "every mesh geometry, pairing of faces and partition", "anchors": ["src/solver/helpers.cpp: InteriorFaceHelperFunctor::precompute_normals", "src/numerics/basis/shape.cpp: get_normals_on_face_quadrilateral, get_normals_on_face_hexahedron"]}
{"id": "C84", "title": "The executables compute the DG solution of the input file, on any number of ranks", "statement": "Running the solver and then the converter on an input file that asks for the Euler equations on a straight-sided conforming mesh leaves a solution file that contains the mesh of the mesh file, the time N dt and, for every element in the numbering of the mesh file, the coefficients of the discontinuous Galerkin solution that the input file describes (its basis, order, flux, initial condition, gas, stepper, step and end time). The file is the same for every number of ranks and every partition.", "quantifier": "every command line, input file, mesh file, METIS result, number of ranks, thread schedule, memory layout, previous memory content and hash-set iteration order for which the two programs run to completion", "why_tests_cant": "every input, partition and schedule; a test runs one case on one machine", "anchors": ["src/exec/main.cpp: main, run_solver", "src/converter/main.cpp: main", "src/solver/base.cpp: Solver::Solver, Solver::solve", "src/mesh/mesh.cpp: Mesh::Mesh, Mesh::partition", "src/io/writer.cpp", "src/io/reader.h"]}
{"id": "C85", "title": "Start-up accepts exactly the inputs it can compute", "statement": "The solver starts if and only if the input file and its mesh file can be opened, every required entry is present and every name is one of the known ones; the solver then runs with exactly the values in the file (or the documented defaults). Input it cannot compute - an unsupported dimension, a dimension that does not fit the basis or the mesh, a physics that is not implemented - is rejected with an error.", "quantifier": "every command line, input file and mesh file, on every rank", "why_tests_cant": "every combination of absent, unknown and inconsistent entries", "anchors": ["src/exec/main.cpp: main, run_solver", "src/solver/base.cpp: Solver::Solver", "src/physics/base/base.cpp: set_physical_params", "src/numerics/numerics_data.cpp: NumericsParams", "src/common/enums.h: enum_from_string"]}
{"id": "C86", "title": "A run completes as long as the solution stays physical (total correctness)", "statement": "For a valid input file and mesh, whatever schedule the run has followed so far, no rank can get stuck, crash or wait for ever in the next time step as long as the discontinuous Galerkin solution has positive density at the volume points and positive density and pressure on both sides of the interior faces at the stages of that step; and if it stays so until the end time, some run of the solver followed by the converter leaves the solution file, so that the guarantees on complete runs are not empty.", "quantifier": "every input file, good mesh (straight-sided quadrilaterals, hexahedra with parallelogram interior faces), METIS result with three interior faces or more per rank, number of ranks, schedule so far, stepper, basis, order up to 11, flux", "why_tests_cant": "every mesh, state and schedule; absence of a crash or deadlock cannot be sampled", "anchors": ["src/exec/main.cpp: main, run_solver", "src/solver/base.cpp: Solver::solve, get_residual", "src/numerics/timestepping/stepper.cpp", "src/memory/memory_network.cpp"]}
{"id": "C87", "title": "Mass, momentum and energy are conserved on every hexahedral mesh, across ranks", "statement": "With the geometry, mass matrices and normals the program itself computes at set-up, any sequence of time steps leaves the integrals of density, momentum and energy over the whole domain unchanged on every valid hexahedral mesh, also when its faces are not flat, whichever ranks the two sides of a face belong to; in general the change is exactly the difference between the fluxes the two ranks of each shared face compute.", "quantifier": "every valid hexahedral mesh and partition, number of ranks, order up to 11, basis, flux, stepper, number of steps, loop order", "why_tests_cant": "every mesh and partition; tests use flat faces on one rank, where the defect does not show", "anchors": ["src/solver/base.cpp: get_residual", "src/solver/helpers.cpp: precompute_normals", "src/numerics/timestepping/stepper.cpp"]}
{"id": "C88", "title": "Set-up and initialisation kernels are free of races", "statement": "The geometry tables, inverse mass matrices and the initial solution computed on the device do not depend on the number of threads per team, on which thread runs which iteration, or on the order in which the threads' loads and stores interleave: every execution completes and leaves the Jacobians, determinants, inverse Jacobians, positions, volumes, inverse mass matrices and initial coefficients of the sequential algorithm.", "quantifier": "every mesh part, shape, basis, order, team sizes, assignment of iterations to threads, interleaving, content of scratch memory, initial condition defined in the dimension", "why_tests_cant": "exponentially many interleavings; a race may stay invisible on one device or team size (compare the face normals, where there is one)", "anchors": ["src/solver/helpers.cpp: VolumeHelperFunctor::compute_inv_mass_matrices, compute_volume_helpers", "src/solver/base.cpp: init_state_from_fcn", "src/numerics/basis/tools.cpp: get_element_jacobian, get_inv_mass_matrices", "src/mesh/tools.cpp", "src/math/linear_algebra.cpp: invA"]}
{"id": "C89", "title": "A whole run on the devices gives the numerical solution, whatever the schedules", "statement": "From freshly allocated device memory, the set-up kernels, the initialisation kernel, and the launches and exchanges of all time steps complete for every choice of team sizes, assignment of iterations to threads, interleaving of the threads' loads and stores and memory layout in each launch on each rank, as long as the discontinuous Galerkin solution stays physical; and every execution leaves the coefficients of one and the same discontinuous Galerkin solution of the case in the memory of the devices.", "quantifier": "every good quadrilateral or hexahedral mesh, partition, number of ranks, basis, order up to 11, flux, stepper, number of steps, team sizes, thread assignments, interleavings, layouts", "why_tests_cant": "exponentially many interleavings in every one of the launches of a run; a test sees one of them", "anchors": ["src/solver/base.cpp: solve, get_residual", "src/numerics/timestepping/stepper.cpp", "src/math/linear_algebra.cpp: cApB_to_B, cApB_to_C", "src/solver/tools.cpp: mult_inv_mass_matrix", "src/solver/helpers.cpp", "src/memory/memory_network.cpp"]}
{"id": "C90", "title": "Ranks running on their own reach the numerical solution under every interleaving", "statement": "With every rank working through its kernels and message exchanges at its own pace - the loads and stores of the threads of all ranks, the sends, receives and waits, the barriers and MPI's reads of the send buffers interleaved in any way - no rank crashes, no schedule deadlocks or goes on for ever, and when the run has ended no message is left over and the devices hold the coefficients of one and the same discontinuous Galerkin solution, as long as that solution stays physical. A fast rank that is already in a later kernel or exchange never disturbs a slow one.", "quantifier": "every schedule of all ranks, threads and messages; every good quadrilateral or hexahedral mesh, partition, number of ranks, basis, order up to 11, flux, stepper, number of steps, team sizes, thread assignments, packing order", "why_tests_cant": "unboundedly many interleavings; a lost message, deadlock or race may need a schedule no test machine produces", "anchors": ["src/memory/memory_network.cpp: communicate_face_solution", "src/solver/base.cpp: solve, get_residual", "src/numerics/timestepping/stepper.cpp", "src/memory/memory_network.h"]}
{"id": "C91", "title": "From input file to solution file under every interleaving", "statement": "For an input file that describes a case on a good mesh whose numerical solution stays physical there is one solution file - the mesh of the mesh file, the time N dt and the coefficients of the discontinuous Galerkin solution - such that every start of the solver, on any number of ranks and with any partition, ends whatever the schedule of ranks, threads and messages, without crash or deadlock, and saving and converting what it leaves on the devices gives exactly that file. The discontinuous Galerkin solution itself is uniquely determined by the case.", "quantifier": "every command line, input file, mesh file, number of ranks, METIS result, hash-set iteration order, team sizes, thread assignments, memory layout, and every interleaving of ranks, threads and messages", "why_tests_cant": "unboundedly many interleavings and partitions; a test runs one of them", "anchors": ["src/exec/main.cpp: main, run_solver", "src/solver/base.cpp", "src/memory/memory_network.cpp", "src/numerics/timestepping/stepper.cpp", "src/io/writer.cpp", "src/converter/main.cpp"]}
{"id": "C92", "title": "Uniform flow is preserved in three dimensions", "statement": "On hexahedral meshes whose interior faces are parallelograms, a uniform state stays uniform away from the boundary: the residual of the uniform initial condition can always be evaluated, and in an element with a neighbour on every face it vanishes up to the error of the tabulated quadrature rules (a multiple 100 64^p 10^-30 of the fluxes through its faces), whatever the partition, basis, flux function and the orientation of the faces. In an element with flat faces, some of which have no neighbour, it is exactly the flux through those faces, to the same error.", "quantifier": "every mesh of hexahedra with parallelogram interior faces (also oblique and periodic ones), partition, number of ranks, admissible state, order up to 11, basis, flux, orientation of faces, content of the work arrays", "why_tests_cant": "every mesh, partition and state; the cancellation of volume and face terms is an identity a test can only sample", "anchors": ["src/solver/base.cpp: get_residual", "src/solver/tools.cpp", "src/solver/helpers.cpp: precompute_normals", "src/numerics/quadrature", "src/physics/euler/euler.cpp"]}
{"id": "C93", "title": "The numbering of elements, nodes and faces in a mesh file does not matter", "statement": "Give the elements, nodes and interior faces of a mesh other numbers, and exchange the two sides of any faces: from either mesh file, on any numbers of ranks and partitions, the program writes solution files with the same time and, for corresponding elements, the same coefficients. With the HLLC flux this needs that at no point of an exchanged face two states run into the face from both sides faster than sound (for those the flux function is not symmetric, see the property on exchanging the sides).", "quantifier": "every renumbering of elements, nodes and faces, every set of exchanged faces, good mesh of quadrilaterals or hexahedra, number of ranks, partition, basis, order up to 11, flux, stepper, number of steps", "why_tests_cant": "factorially many numberings of every mesh; tests use the numbers one mesh generator gave", "anchors": ["src/mesh/mesh.cpp", "src/solver/base.cpp: get_residual", "src/solver/helpers.cpp", "src/physics/euler/functions.cpp", "src/converter/main.cpp"]}
{"id": "C94", "title": "The time a run prints and stores", "statement": "solver.time is a double, advanced in every step. It stays finite and grows in every step, and after n steps of either stepper it is n times the time step up to a relative error of n 2^-52; it is exactly that when the multiples of the step have at most 53 bits. For up to 2^20 steps the time in the solution file lies at most one time step (and a thousandth) before the requested end time and at most a thousandth of a step after it.", "quantifier": "every finite time step of at least 2^-1021, end time without overflow, both steppers, every number of steps below 2^31", "why_tests_cant": "rounding errors accumulate over all steps; every pair of doubles; a test checks a few round numbers", "anchors": ["src/numerics/timestepping/stepper.cpp: take_time_step", "src/solver/base.cpp: solve", "src/io/writer.cpp", "src/common/defines.h"]}
{"id": "C95", "title": "Axes and units do not matter", "statement": "If a mesh is moved, turned and enlarged by a factor l, densities are measured in units 1/a and velocities in units 1/b of the old ones, and the time step is multiplied by l/b, then the solution file of the program is the old one in the new units: its time is l/b times the old time and every coefficient has its density multiplied by a, its momentum by ab and turned, and its energy by ab^2. This holds for both fluxes, both steppers, any ranks and partitions on either side.", "quantifier": "every good quadrilateral or flat-faced hexahedral mesh, rotation, translation and positive scale factors, both steppers and fluxes, all orders, number of steps, ranks and partitions; initial states that correspond", "why_tests_cant": "any rotation angle and any units, over all steps of the run; a test compares a few angles", "anchors": ["src/physics/euler/functions.h", "src/physics/euler/euler.cpp", "src/solver/base.cpp: solve", "src/numerics/timestepping/stepper.cpp: take_time_step", "src/solver/tools.h", "src/math/linear_algebra.h"]}
{"id": "C96", "title": "First-order runs stay physical", "statement": "With order zero, Lax-Friedrichs fluxes and forward Euler, a run that starts from a physical state (positive density and pressure at all points of the elements) and whose time step satisfies, before every step and for every element, dt * sum over its faces of (face area * largest wave speed on the two sides) < volume, completes, and every state it passes through is physical: density and pressure in the solution file are positive in every element. Mass, momentum and energy of the whole mesh are those of the projected initial state, and no element ever holds more mass or energy than the mesh does.", "quantifier": "every good quadrilateral or flat-faced hexahedral mesh, physical initial state, ratio of specific heats above 1, time step, number of steps, ranks and partitions", "why_tests_cant": "positivity must survive every step, for every arrangement of neighbouring states, shocks and near-vacuum included; a test tries a few", "anchors": ["src/physics/euler/functions.h", "src/physics/euler/euler.cpp", "src/solver/base.cpp: solve", "src/numerics/timestepping/stepper.cpp: take_time_step", "src/solver/helpers.cpp"]}
{"id": "C97", "title": "Runs repeat to the last bit", "statement": "In any arithmetic (rounding, overflow, NaN behaviour included), two runs of one input on one mesh, number of ranks and assignment of the elements end with exactly the same coefficients in every element, whatever the order in which the parallel loops run their iterations and the messages arrive and whatever uninitialised memory held. So do two runs on different numbers of ranks and assignments if every interior face is inside one rank in both runs or in neither, or if the flux through it is the same with the normal computed from either of its elements; renumbering the ranks changes nothing. (Kernels with one thread per team: with more, the face-normal kernel races, see C82.)", "quantifier": "every type of numbers with any operations, every library routine that is a function of what it reads, input, mesh, number of ranks, assignment, loop order, message order and content of uninitialised memory, both steppers and fluxes, any number of steps", "why_tests_cant": "every schedule and every initial content of memory must lead to the same bits; a test sees the schedules of one machine, and compares up to a tolerance", "anchors": ["src/solver/base.cpp: solve", "src/solver/helpers.cpp", "src/solver/tools.cpp", "src/numerics/timestepping/stepper.cpp: take_time_step", "src/math/linear_algebra.cpp", "src/physics/euler/functions.cpp", "src/physics/base/functions.cpp", "src/mesh/tools.cpp"]}
{"id": "C98", "title": "On quadrilaterals the number of ranks changes no bit", "statement": "In IEEE double precision, with straight-edged quadrilaterals and Lax-Friedrichs fluxes, two runs of one input on one mesh end with the same bits in every element, whatever their numbers of ranks and assignments of the elements: although a face between two ranks gets its normal from two elements and a face inside a rank from one, both computations give the same flux. On hexahedra this is false: there are two boxes and a gas at rest for which one step on one rank and one step on two ranks differ in the last bits.", "quantifier": "every quadrilateral mesh whose elements share edges, order, tables, initial condition, gas, time step and number of steps, both steppers, any numbers of ranks and assignments; every double, infinities and NaN included", "why_tests_cant": "rounding, signed zeros and NaNs of every face; a test of a few partitions would have to compare bits, and passes on meshes with exactly representable coordinates", "anchors": ["src/numerics/basis/shape.cpp: get_normals_on_face_quadrilateral", "src/solver/helpers.cpp", "src/physics/base/functions.cpp", "src/numerics/basis/tools.cpp: get_lagrange_basis_grad_1D", "src/math/linear_algebra.cpp"]}
{"id": "C99", "title": "The numbers in the mesh file change no bit", "statement": "Give the nodes, elements and interior faces of a mesh file other numbers. In any arithmetic, a run on the old and a run on the new file, on any numbers of ranks, end with exactly the same coefficients in corresponding elements if every face is inside one rank in both runs or in neither, or if the flux through it is the same with the normal computed from either of its elements. In IEEE double precision, with straight-edged quadrilaterals and Lax-Friedrichs fluxes, the file may in addition exchange the left and right element of any faces, and the ranks may cut the mesh in any way: if neither run ends with a NaN, all bits agree. The condition about NaN is needed: with a negative pressure in one element, which of two elements the file calls the left one decides whether the run ends with NaN.", "quantifier": "every pair of mesh files that differ in numbering (and, in the second part, in the sides of faces), order, tables, initial condition, gas, time step and number of steps, both steppers, any numbers of ranks, assignments, loop and message orders; first part: every type of numbers, both shapes and fluxes", "why_tests_cant": "factorially many numberings of every mesh, and every rounding, signed zero and NaN along the run; tests use the numbers one mesh generator gave and compare up to a tolerance", "anchors": ["src/mesh/mesh.cpp", "src/solver/helpers.cpp", "src/physics/base/functions.cpp", "src/solver/base.cpp: solve", "src/numerics/basis/shape.cpp: get_normals_on_face_quadrilateral", "src/math/linear_algebra.cpp"]}
{"id": "C100", "title": "The 3D vortex used for error norms solves the Euler equations", "statement": "The three-dimensional vortex is a solution of the equations the solver integrates, and the exact solution the error norms compare with is that solution at the time asked for: the state set by the initial condition, carried along with its base flow (velocity 1 in x), satisfies the five Euler conservation laws at every point and time, and the function for the exact solution returns that carried state.", "quantifier": "every ratio of specific heats above 1 and up to 2, every point and time", "why_tests_cant": "a statement about derivatives at every point and time; a test that compares after a full period, which the code's comment asks for, cannot see that the time is ignored", "anchors": ["src/physics/euler/functions.cpp: set_state_isentropic_vortex", "src/physics/base/base.cpp: call_exact_solution"]}
{"id": "C101", "title": "First-order runs with the HLLC flux stay physical", "statement": "With order zero, HLLC fluxes and forward Euler, a run that starts from a physical state (positive density and pressure at all points of the elements) and whose time step satisfies, before every step and for every element, dt * sum over its faces of (face area * (largest speed of sound waves on the two sides + largest speed of the two outer waves HLLC assumes at the face)) < volume, completes, and every state it passes through is physical: density and pressure in the solution file are positive in every element, also where two supersonic streams collide and where the estimated contact wave overtakes an outer wave. Mass, momentum and energy of the whole mesh are those of the projected initial state, and no element ever holds more mass or energy than the mesh does.", "quantifier": "every mesh of straight-edged quadrilaterals or of hexahedra with parallelogram faces (with or without faces that have no neighbour), ratio of specific heats above 1, physical initial state and time step under the condition, any number of steps, ranks and assignment of elements", "why_tests_cant": "no number of shock-tube tests covers all pairs of neighbouring states and all branches of the flux at every face and step, and one negative pressure ends a run", "anchors": ["src/physics/euler/functions.cpp: compute_flux_hllc", "src/physics/base/functions.cpp", "src/solver/helpers.cpp", "src/numerics/timestepping/stepper.cpp", "src/solver/base.cpp: solve"]}
{"id": "C102", "title": "A gas at rest with uneven density", "statement": "Take a gas at rest under uniform pressure whose density is any positive function of the solution space - smooth, or with jumps at element faces (standing contact discontinuities). With the HLLC flux the residual evaluation succeeds and gives exactly zero for mass and energy in every element, and for momentum at most the error of the tabulated quadrature rules in every element that has a neighbour on each face: contacts are kept exactly, in any direction and at any polynomial order. With the Lax-Friedrichs flux they are not: every element that is lighter than all its neighbours gains mass.", "quantifier": "every mesh of straight-edged quadrilaterals or of hexahedra with parallelogram faces, every basis and order with tables, every positive density, ratio of specific heats above 1, any number of ranks and assignment of elements, any order of the parallel loops", "why_tests_cant": "the densities, meshes, orders and partitions are unlimited, and exactness on a few contacts aligned with the mesh says nothing about oblique ones", "anchors": ["src/physics/euler/functions.cpp: compute_flux_hllc", "src/physics/base/functions.cpp: compute_flux_laxfriedrichs", "src/solver/helpers.cpp", "src/solver/base.cpp: get_residual"]}
{"id": "C103", "title": "A flow that repeats keeps repeating", "statement": "If a mesh consists of translated copies of a part - element pe(e) is element e moved by some vector and its faces lead to corresponding neighbours, as on periodic and extruded meshes - and the initial condition has the same values at corresponding points, then the solution file holds exactly the same coefficients for corresponding elements, whatever the number of ranks and however the ranks cut the copies. So the three-dimensional vortex, which does not depend on y, stays independent of y on every mesh that repeats in the direction of y. (HLLC with faces whose sides the file names in the other order in the copy: as long as the run is calm, see C93.)", "quantifier": "every mesh of straight-edged quadrilaterals or hexahedra with parallelogram faces, every correspondence of elements and faces and every translations, basis, order, initial condition, gas, both fluxes and steppers, number of steps, ranks and assignment of elements", "why_tests_cant": "the symmetry has to survive every step on every mesh and partition; a test sees one mesh and compares up to a tolerance, and a solver that treats a partition boundary differently breaks it", "anchors": ["src/solver/base.cpp: solve", "src/solver/helpers.cpp", "src/numerics/timestepping/stepper.cpp: take_time_step", "src/physics/euler/functions.cpp: set_state_isentropic_vortex", "src/mesh/mesh.cpp", "src/numerics/basis/shape.cpp"]}
{"id": "C104", "title": "A change reaches one element further per residual evaluation, and no faster", "statement": "The result in an element is decided by its surroundings: if two runs of the program, on two meshes and any numbers of ranks, use the same method, step size and number of steps, and the elements that can be reached from an element through at most n faces have the same shape, the same connections and the same initial state in both runs, where n is the number of residual evaluations (one per forward Euler step, four per Runge-Kutta step), then both solution files hold the same coefficients for that element, whatever the meshes and the flow look like further away, and however the elements are numbered and distributed.", "quantifier": "every pair of meshes of straight-edged quadrilaterals or hexahedra with parallelogram faces, every element, basis, order, initial conditions, gas, both fluxes and steppers, number of steps, numbers of ranks and assignments of elements", "why_tests_cant": "that nothing else leaks into an element - a wrong ghost value, a neighbour of another rank, a stale accumulator - is a statement about all distant changes and all partitions; a test changes one mesh in one place", "anchors": ["src/solver/base.cpp: solve", "src/solver/helpers.cpp", "src/numerics/timestepping/stepper.cpp: take_time_step", "src/mesh/mesh.cpp", "src/exec/main.cpp"]}
{"id": "C105", "title": "The time integration is accurate to the advertised order", "statement": "With the spatial discretisation fixed, the discontinuous Galerkin method turns the Euler equations into a system of ordinary differential equations. If that system has a solution on a time interval and its right-hand side is smooth and Lipschitz near it, there is one constant such that every run of the program on that mesh with that method, on any number of ranks and with any step size below a threshold, ends with coefficients that differ from the solution at the end time by at most the constant times the fourth power of the step size with RK4, and the constant times the step size with forward Euler.", "quantifier": "every mesh of straight-edged quadrilaterals or hexahedra with parallelogram faces, basis, order, initial condition, gas, flux, both steppers, every smooth solution of the semi-discrete system, every step size below the threshold and number of steps within the interval, numbers of ranks and assignments of elements", "why_tests_cant": "an order of accuracy is a statement about all small step sizes with one constant; a convergence test samples a few and a wrong coefficient that lowers the order of a high-order method can hide behind the spatial error", "anchors": ["src/numerics/timestepping/stepper.cpp: take_time_step", "src/solver/base.cpp: solve", "src/solver/helpers.cpp", "src/exec/main.cpp"]}
{"id": "C106", "title": "Which corner of an element comes first does not matter", "statement": "The mesh file may list the four corners of a quadrilateral from any of them on (counter-clockwise around the element), and the eight corners of a hexahedron in any of the 24 right-handed orders. If two mesh files differ only in that, element by element - and so in the edge or face numbers and the face orientations in their face rows - then two runs of the program with the same input on any numbers of ranks give the same solution at the same point of space: the element has, at the reference point turned with its corners, the same physical location and the same value of every state variable. A mesh relisted that way is as acceptable to the solver as the original.", "quantifier": "every mesh of straight-edged quadrilaterals or of hexahedra with flat faces, every choice of first corner (and axes) for every element, basis, order, initial condition, gas, both fluxes and steppers, number of steps, ranks and assignments of elements, every point of every element", "why_tests_cant": "it ties together quadrature tables, basis functions, Jacobians, face-point tables and normals of all orientations: one entry that treats an edge differently breaks it for some combination of edges and orders that a test mesh, whose generator lists corners in one way, does not contain", "anchors": ["src/solver/base.cpp: solve", "src/solver/helpers.cpp", "src/numerics/basis/shape.cpp", "src/numerics/basis/basis.cpp", "src/numerics/quadrature", "src/mesh/mesh.cpp", "src/exec/main.cpp"]}
{"id": "C107", "title": "A mesh has one solution, however it is written down", "statement": "For every mesh the discrete problem has exactly one solution; and if two mesh files describe the same mesh -- with elements, nodes and faces numbered differently, the sides of faces exchanged and elements listed from another corner on, all at once -- the solution files hold the same values at the same points of space.", "quantifier": "every conforming mesh of convex quadrilaterals or of flat-faced hexahedra, basis, order 0-11, initial state, flux, stepper, number of steps, numbers of ranks; with HLLC and exchanged sides, as long as no two supersonic streams collide head-on at an exchanged face", "why_tests_cant": "the ways to write down a mesh are too many to try, and a single change of numbering may hide a compensating second one", "anchors": ["src/mesh/mesh.cpp: read_mesh, partition_manually", "src/solver/helpers.cpp: precompute_matrix_helpers", "src/numerics/basis/shape.cpp"]}
