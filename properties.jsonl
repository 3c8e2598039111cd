{"id": "C01", "title": "Kernel derivatives are the derivatives of the kernel", "statement": "For every radial kernel offered by the implicit-surface API (global inverse distance, local cubic, local approximate, local smooth) the reported first derivative df is the true derivative of f at every distance strictly inside and strictly outside the support, and ddf is the true derivative of df there.", "quantifier": "for all kernel radii > 0, all tolerances > 0 and all distances away from the support boundary", "why_tests_cant": "A finite set of sample distances with a numeric tolerance cannot distinguish a derivative formula that is wrong only in a coefficient of high order, at a removable point, or for untested radius/tolerance combinations.", "anchors": ["implicits/src/kernel.rs: GlobalInvDistance2, LocalCubic, LocalApproximate, LocalSmooth (f, df, ddf)"]}
{"id": "C02", "title": "Local kernels have compact support and are normalised weights", "statement": "A local kernel returns exactly zero (value and derivatives) at every distance beyond its radius, so a sample outside the radius cannot influence the surface; the cubic, smooth and approximate kernels equal one at distance zero, lie in [0,1] and never increase with distance; the interpolating kernel is positive inside its support.", "quantifier": "for all radii > 0, tolerances > 0 and all non-negative distances", "why_tests_cant": "Monotonicity and support are statements about a continuum of distances and all radii.", "anchors": ["implicits/src/kernel.rs: LocalCubic::f, LocalApproximate::f, LocalSmooth::f"]}
{"id": "C03", "title": "Local kernels join zero smoothly at the radius", "statement": "Both the value and the first derivative of the cubic, interpolating and smooth kernels vanish at the support radius and the kernel is differentiable there, so forces are continuous when a sample enters or leaves the neighbourhood. (The approximate kernel is documented to lack this; it has a kink at the radius for all parameters.)", "quantifier": "for all radii > 0 and tolerances > 0", "why_tests_cant": "The boundary is a measure-zero set that random tests never hit, and the claim concerns a limit.", "anchors": ["implicits/src/kernel.rs: LocalCubic, LocalSmooth, LocalApproximate (f, df at x = radius)"]}
{"id": "C04", "title": "Contact penalty is a non-negative barrier active exactly inside the tolerance", "statement": "The contact penalty is zero at every distance at or above delta, strictly positive below it, strictly decreasing below it, and its reported first and second derivatives are the true derivatives everywhere, including across the activation distance.", "quantifier": "for all delta > 0 and all real distances (penetrating or separated)", "why_tests_cant": "Differentiability across the switching distance and strict monotonicity are limits over a continuum; sampling never exercises the switch itself.", "anchors": ["softy/src/constraints/penalty_point_contact.rs: ContactPenalty::{b, db, ddb}"]}
{"id": "C05", "title": "Contact forces never pull", "statement": "The contact multiplier derived from the penalty is never negative, is zero for separated points, and grows monotonically with penetration depth.", "quantifier": "for all contact stiffnesses > 0, all delta > 0 and all distance vectors of any length", "why_tests_cant": "Must hold for every point of every mesh at every step.", "anchors": ["softy/src/constraints/penalty_point_contact.rs: ContactState::update_multipliers, ContactPenalty::db"]}
{"id": "C06", "title": "Sliding friction potential and force agree", "statement": "For every friction profile without static falloff, the potential used by the merit function has the friction profile used by the residual as its derivative in the sliding speed, for every smoothing parameter.", "quantifier": "for all sliding speeds >= 0, all epsilon > 0, all profiles", "why_tests_cant": "A finite-difference test at sample speeds cannot see an error at the regime switch or for untested epsilon.", "anchors": ["softy/src/constraints/penalty_point_contact.rs: stabilized/quadratic sliding potentials, eta_int, eta, FrictionProfile"]}
{"id": "C07", "title": "Friction opposes sliding and respects the Coulomb cone", "statement": "The friction force at a contact is anti-parallel to the sliding velocity, vanishes at zero velocity, and its magnitude never exceeds the friction coefficient times the normal force.", "quantifier": "for all sliding velocities, all normal forces >= 0, all friction coefficients >= 0, all epsilon > 0, all profiles", "why_tests_cant": "The cone bound is a supremum over all velocities.", "anchors": ["softy/src/constraints/penalty_point_contact.rs: eta, compute_friction_force, FrictionProfile::profile"]}
{"id": "C08", "title": "Friction Jacobian is the derivative of the friction force", "statement": "The matrix used to linearise friction is the derivative of the friction force with respect to sliding velocity, also when static and dynamic coefficients differ.", "quantifier": "for all non-zero sliding velocities, all epsilon, all pairs of static/dynamic coefficients and all falloff widths", "why_tests_cant": "The discrepancy depends on the falloff width and vanishes for the default value used in tests.", "anchors": ["softy/src/constraints/penalty_point_contact.rs: eta_jac, dfalloff, falloff, falloff_int"]}
{"id": "C09", "title": "A recomputed maximum step is never violated by the velocities it was computed from", "statement": "After the solver recomputes the maximum allowed step from the current velocities, the same velocities and time step are no longer reported as violating it.", "quantifier": "for all velocity fields, time steps >= 0 and contact radii >= 0", "why_tests_cant": "A universal statement over all velocity fields; the margin constant could fail at the boundary only.", "anchors": ["softy/src/constraints/penalty_point_contact.rs: max_step_violated, compute_max_step, update_max_step"]}
{"id": "C10", "title": "Contact-assisted line search only shortens the step and keeps separation", "statement": "The step scale proposed by the contact line-search assistant never exceeds the scale passed in and is positive when every separation is positive, whatever the order of the contacts.", "quantifier": "for all lists of separations and approach speeds and all incoming step scales in (0,1]", "why_tests_cant": "Needs every list of contacts, including the empty and the tied ones.", "anchors": ["softy/src/constraints/penalty_point_contact.rs: assist_line_search_for_contact", "softy/src/fem/nl/problem/assisted_line_search.rs"]}
{"id": "C11", "title": "Friction-assisted line search is independent of the incoming scale", "statement": "The friction line-search assistant returns the average of step scales at which contacts change sliding regime; for the same full step, the returned scale refers to the same point on the search line whatever intermediate scale was passed in.", "quantifier": "for all search directions, contact velocities and incoming step scales in (0,1]", "why_tests_cant": "Only fails for incoming scales different from one, which unit tests do not exercise.", "anchors": ["softy/src/constraints/penalty_point_contact.rs: assist_line_search_for_friction", "softy/src/fem/nl/newton.rs: solve_with (assisted branch)"]}
{"id": "C12", "title": "Transposed contact Jacobian is the adjoint of the contact Jacobian", "statement": "Mapping vertex velocities to contact velocities and mapping contact forces back to vertices are adjoint linear maps (power is conserved), for every contact configuration in which no vertex is on both sides of the contact (self-contact is rejected when the solver is built).", "quantifier": "for all index maps, all block values, all velocity and force vectors", "why_tests_cant": "Power conservation must hold for every configuration; overlapping index sets are a configuration tests do not build.", "anchors": ["softy/src/constraints/penalty_point_contact.rs: MappedContactJacobian::{mul, transpose_mul}"]}
{"id": "C13", "title": "Contact coordinates round-trip and preserve lengths", "statement": "Converting a vector to contact coordinates and back returns the vector; lengths and inner products are preserved; the tangential projection has zero normal component and is idempotent.", "quantifier": "for all unit normals with unit orthogonal tangents and all vectors", "why_tests_cant": "Holds for a continuum of frames; a sampled frame cannot settle it.", "anchors": ["softy/src/contact.rs: ContactBasis::{to_contact_coordinates, from_contact_coordinates, to_tangent_space, from_tangent_space, project_out_normal_component}"]}
{"id": "C14", "title": "Contact frames built from normals are orthonormal", "statement": "For every unit normal the constructed contact frame is orthonormal and right-handed; the construction never divides by zero.", "quantifier": "for all unit normals", "why_tests_cant": "The degenerate case (normal aligned with the chosen axis) is excluded only by the axis choice, which must be right for every normal.", "anchors": ["softy/src/contact.rs: ContactBasis::update_from_normals"]}
{"id": "C15", "title": "Sparse and dense contact basis matrices represent the same map", "statement": "The sparse-matrix form of the tangent basis maps tangential coordinates to the same vectors as the direct conversion and as the block-diagonal matrix form.", "quantifier": "for all contact frames and all numbers of contacts", "why_tests_cant": "Needs equality of two linear maps on every input, not on an input with symmetric or zero components.", "anchors": ["softy/src/contact.rs: ContactBasis::{tangent_basis_matrix_sprs, tangent_basis_matrix, normal_basis_matrix_sprs, from_tangent_space, contact_basis_matrix}"]}
{"id": "C16", "title": "Remapping cached values after the active set changes", "statement": "When the active constraint set changes from one sorted index list to another, each surviving constraint keeps its cached value, each new constraint gets the default, nothing else appears and the length equals the new set.", "quantifier": "for all strictly increasing old and new index lists of any length and all values", "why_tests_cant": "The merge has unbounded input size and interleavings.", "anchors": ["softy/src/constraints/mod.rs: remap_values_iter, remap_values"]}
{"id": "C17", "title": "Masked filtering and distribution are inverse", "statement": "Filtering a sequence by a mask keeps exactly the unmasked elements in order, and distributing them back over the same mask restores every kept position and puts the default elsewhere.", "quantifier": "for all sequences and masks of any (also different) lengths", "why_tests_cant": "Unbounded sequence lengths and mismatched lengths.", "anchors": ["softy/src/mask_iter.rs: FilterMaskedIterator::next, DistributeIterator::next"]}
{"id": "C18", "title": "Sparse Jacobian assembly equals the sum of triplets", "statement": "After the sparsity pattern is built once and values are redistributed, each matrix entry equals the sum of all triplet values with that row and column; triplets outside the system are dropped; no entry is duplicated and rows are sorted.", "quantifier": "for all triplet lists, all orders, all duplicates, all sizes", "why_tests_cant": "Duplicates and orderings are unbounded; a small mesh does not show index collisions of the in-place redistribution.", "anchors": ["softy/src/fem/nl/newton.rs: sparse_matrix_and_mapping, redistribution of Jacobian values in solve_with"]}
{"id": "C19", "title": "Zero complementarity residual is exactly the complementarity condition", "statement": "The residual of the mixed complementarity wrapper is zero in a component if and only if the component satisfies the bound/complementarity conditions: interior with zero force, or at a bound with force pushing outward.", "quantifier": "for all values, all bounds l < u, all residuals, all dimensions", "why_tests_cant": "An equivalence over reals with three active regimes.", "anchors": ["softy/src/fem/nl/mcp.rs: MCP::residual"]}
{"id": "C20", "title": "Complementarity Jacobian matrix and Jacobian product agree", "statement": "For the complementarity wrapper, multiplying by the explicitly assembled Jacobian and calling the matrix-free product give the same vector, so the direct and iterative solvers see the same Newton system.", "quantifier": "for all dimensions, bounds, triplet lists and directions", "why_tests_cant": "Only differs in components with an active bound; tests use infinite bounds.", "anchors": ["softy/src/fem/nl/mcp.rs: MCP::jacobian_values, MCP::jacobian_product"]}
{"id": "C21", "title": "Newton reports success only at a converged point of the original problem", "statement": "If a nonlinear solve reports Success, the convergence test passed at the returned point and the friction smoothing parameters in force equal the ones the user set.", "quantifier": "for all problems, all parameter settings, all sequences of linear-solver outcomes and callbacks", "why_tests_cant": "Quantifies over every control-flow path of an unbounded loop.", "anchors": ["softy/src/fem/nl/newton.rs: solve_with", "softy/src/fem/nl/problem.rs: converged"]}
{"id": "C22", "title": "Newton terminates within its iteration budget", "statement": "A nonlinear solve performs at most max(1, max_iter) iterations and reports exactly the number performed; if it stops for exceeding the budget, the budget was really used.", "quantifier": "for all problems, parameters and histories", "why_tests_cant": "Termination over all problems cannot be tested.", "anchors": ["softy/src/fem/nl/newton.rs: solve_with"]}
{"id": "C23", "title": "Accepted line-search steps give the documented sufficient decrease", "statement": "When backtracking accepts a step, the merit function satisfies the documented sufficient decrease condition, so the merit never increases between accepted iterates.", "quantifier": "for all merit functions, directions and line search settings", "why_tests_cant": "Fails only on ascent directions, which appear for indefinite Jacobians.", "anchors": ["softy/src/fem/nl/newton.rs: test_alpha, backtracking loop, LineSearch"]}
{"id": "C24", "title": "Adaptive friction smoothing is restored after every solve", "statement": "After a nonlinear solve ends, for whatever reason, the friction smoothing parameters equal those before the solve.", "quantifier": "for all exit statuses and all histories of solves", "why_tests_cant": "Only visible on early exits after an adaptive start.", "anchors": ["softy/src/fem/nl/newton.rs: solve_with (adaptive epsilon)", "softy/src/fem/nl/problem.rs: epsilon_iter_mut"]}
{"id": "C25", "title": "Iterative linear-solver tolerance is restored after every solve", "statement": "The tolerance of the inner iterative solver after a nonlinear solve equals the configured one, whatever happened inside.", "quantifier": "for all exit statuses of the main loop", "why_tests_cant": "Path-quantified.", "anchors": ["softy/src/fem/nl/newton.rs: solve_with (tol)"]}
{"id": "C26", "title": "Initial-guess backtracking terminates with a scaled guess", "statement": "The search for a finite starting residual evaluates the residual a bounded number of times and ends with the original guess scaled by a power of one half, or with zero.", "quantifier": "for all residual functions and initial guesses", "why_tests_cant": "Quantifies over all residual functions.", "anchors": ["softy/src/fem/nl/newton.rs: solve_with (initial guess loop)"]}
{"id": "C27", "title": "Diagonal scaling is invertible", "statement": "The diagonal scaling applied to the problem is finite and strictly positive for every Jacobian diagonal, and scaling followed by unscaling is the identity on vectors.", "quantifier": "for all diagonals of any sign and size and all vectors", "why_tests_cant": "Zero and tiny pivots are corner cases in a continuum.", "anchors": ["softy/src/fem/nl/problem.rs: diagonal_preconditioner", "softy/src/fem/nl/newton.rs: rescale_vector, unscale_vector, rescale_jacobian_values"]}
{"id": "C28", "title": "One simulation step performs a bounded number of solves", "statement": "A simulation step always terminates; the number of nonlinear solves is at most the configured number of contact iterations plus the number of integration stages.", "quantifier": "for all contact responses and all solver outcomes", "why_tests_cant": "Termination for every behaviour of the contact subsystem.", "anchors": ["softy/src/fem/nl/solver.rs: Solver::step"]}
{"id": "C29", "title": "A step leaves the configured time step unchanged", "statement": "After a simulation step returns, successfully or with an error, the configured time step is the one the user set, so the next step integrates the same interval.", "quantifier": "for all multi-stage integration schemes, all outcomes", "why_tests_cant": "Visible only when a stage of a multi-stage scheme fails.", "anchors": ["softy/src/fem/nl/solver.rs: Solver::step", "softy/src/fem/nl/time_integration.rs: TimeIntegration::step_integrator"]}
{"id": "C30", "title": "A step never commits an unresolved contact state", "statement": "A step that returns success has committed a state in which neither the contact tolerance nor the maximum step is violated.", "quantifier": "for all contact responses, all iteration limits", "why_tests_cant": "Requires all interleavings of violations over the retry loop.", "anchors": ["softy/src/fem/nl/solver.rs: Solver::step, commit_solution"]}
{"id": "C31", "title": "Conjugate residual solver: success means the residual is small", "statement": "When the conjugate residual solver reports success, the true residual b - A x of the returned x is within tolerance of b; the tracked residual equals the true residual after every iteration; at most max_iter iterations are used.", "quantifier": "for all linear operators, preconditioners, right-hand sides, start vectors and iteration limits", "why_tests_cant": "Invariant of an unbounded iteration over all operators.", "anchors": ["softy/src/fem/nl/linsolve/cr.rs: CR::solve, solve_precond"]}
{"id": "C32", "title": "BiCGSTAB: success means the residual is small", "statement": "When the BiCGSTAB solver reports success, the true residual of the returned solution satisfies the tolerance, including after an internal restart.", "quantifier": "for all linear operators and start vectors", "why_tests_cant": "The restart branch is reached only on near-breakdown, rare in tests.", "anchors": ["softy/src/fem/nl/linsolve/bicgstab.rs: BiCGSTAB::solve"]}
{"id": "C33", "title": "Time integrators reproduce quadratic motion exactly", "statement": "Trapezoidal rule, BDF2, TR-BDF2 and SDIRK2 position updates are exact on every motion with constant acceleration, and backward Euler on every motion with constant velocity.", "quantifier": "for all initial positions, velocities, accelerations, time steps > 0 and all TR-BDF2 split parameters in (0,1)", "why_tests_cant": "Exactness for all parameters is an identity; sampled runs only show small error.", "anchors": ["softy/src/fem/nl/state.rs: be_step, tr_step, lerp_step, bdf2_step, mixed_bdf2_step, sdirk2_step", "softy/src/fem/nl/time_integration.rs", "softy/src/fem/nl/problem.rs: integrate_step, update_cur_vertices"]}
{"id": "C34", "title": "Force scaling matches the position update", "statement": "For every single-step scheme the factor used to scale the implicit force equals the derivative of the updated position with respect to the updated velocity divided by the time step, and the history weights sum to one.", "quantifier": "for all schemes and parameters", "why_tests_cant": "Needs agreement of two independently written coefficient tables for all parameters.", "anchors": ["softy/src/fem/nl/time_integration.rs: implicit_factor, explicit_factor", "softy/src/fem/nl/state.rs", "softy/src/fem/nl/problem.rs: integrate_step, update_cur_vertices"]}
{"id": "C35", "title": "Advancing shifts the state history by one step", "statement": "After any sequence of committed steps, the previous state is the state before the last commit and the current one is the last committed; no vertex outside the degrees of freedom changes.", "quantifier": "for all histories of commits", "why_tests_cant": "History-quantified.", "anchors": ["softy/src/fem/nl/state.rs: GeneralizedCoords::advance, State::advance, update_with"]}
{"id": "C36", "title": "Prescribed vertices move consistently with their velocity", "statement": "After new positions are supplied, every fixed vertex ends at its prescribed position, its velocity times the time step equals its displacement, and free vertices are untouched.", "quantifier": "for all vertex types, all supplied position arrays of any length, all time steps > 0", "why_tests_cant": "Includes arrays that are shorter than the mesh.", "anchors": ["softy/src/fem/nl/state.rs: update_fixed_vertices"]}
{"id": "C37", "title": "Results come back in the user's vertex order", "statement": "The simulated vertices are sorted internally by type; reading positions back returns each vertex at the index the user gave it, and every vertex exactly once.", "quantifier": "for all meshes, all assignments of vertex types", "why_tests_cant": "All permutations of any size.", "anchors": ["softy/src/fem/nl/state.rs: sort_mesh_vertices_by_type, update_input", "softy/src/fem/nl/problem.rs: vertex_positions"]}
{"id": "C38", "title": "Lumped masses add up to the total mass", "statement": "The sum of the lumped vertex masses equals the sum over elements of volume (or area) times density, and all are non-negative.", "quantifier": "for all tetrahedral and triangle meshes with in-range indices", "why_tests_cant": "All meshes.", "anchors": ["softy/src/fem/nl/state.rs: compute_vertex_masses"]}
{"id": "C39", "title": "Momentum term is the gradient of the inertia energy", "statement": "The inertia contribution to the residual is the gradient of the inertia energy in the new velocity, its Hessian and Hessian diagonal agree with it, and the total momentum change equals the mass-weighted sum of velocity changes.", "quantifier": "for all meshes (including repeated vertices) and velocities", "why_tests_cant": "All mesh topologies with shared vertices.", "anchors": ["softy/src/energy_models/inertia/soft_solid.rs: TetSolidInertia", "softy/src/energy_models/inertia/soft_shell.rs"]}
{"id": "C40", "title": "Gravity force is the negative gradient of gravity energy and sums to the weight", "statement": "The gravity gradient is the gradient of the gravity energy and the sum of gravity forces over all vertices is total mass times gravity.", "quantifier": "for all meshes, densities and gravity vectors", "why_tests_cant": "All meshes.", "anchors": ["softy/src/energy_models/gravity.rs: TetSolidGravity, SoftTriShellGravity, RigidShellGravity"]}
{"id": "C41", "title": "Neo-Hookean gradient is the gradient of the Neo-Hookean energy", "statement": "On every non-inverted configuration the reported gradient of the Neo-Hookean element energy is the derivative of the energy in every direction; on inverted ones both are reported as infinite.", "quantifier": "for all deformed shapes, rest shapes, volumes and Lame parameters", "why_tests_cant": "The unit test checks a single deformed tetrahedron with unit parameters.", "anchors": ["softy/src/energy_models/elasticity/tet_nh.rs: NeoHookeanTetEnergy::{energy, energy_gradient}"]}
{"id": "C42", "title": "Neo-Hookean Hessian and Hessian product are derivatives of the gradient", "statement": "On every non-inverted configuration the Hessian product is the directional derivative of the gradient, and the Hessian blocks represent the same linear map.", "quantifier": "for all non-inverted shapes, directions and parameters", "why_tests_cant": "The unit test checks a single configuration.", "anchors": ["softy/src/energy_models/elasticity/tet_nh.rs: energy_hessian, energy_hessian_product_transpose"]}
{"id": "C43", "title": "Stable Neo-Hookean gradient is the gradient of its energy", "statement": "On every configuration, also inverted ones, the reported gradient of the stable Neo-Hookean element energy is the derivative of the energy in every direction.", "quantifier": "for all deformed shapes, rest shapes and parameters with lambda non-zero", "why_tests_cant": "The unit test checks a single configuration.", "anchors": ["softy/src/energy_models/elasticity/tet_snh.rs: energy, energy_gradient"]}
{"id": "C44", "title": "Stable Neo-Hookean Hessian product is the derivative of the gradient", "statement": "On every configuration the Hessian product of the stable Neo-Hookean element is the directional derivative of the gradient.", "quantifier": "for all shapes, directions and parameters", "why_tests_cant": "The unit test checks a single configuration.", "anchors": ["softy/src/energy_models/elasticity/tet_snh.rs: energy_hessian_product_transpose, energy_hessian, elastic_energy_deformation_hessian"]}
{"id": "C45", "title": "Elastic forces conserve linear and angular momentum", "statement": "The elastic forces on the vertices of any mesh sum to zero and exert zero net torque.", "quantifier": "for all meshes of tetrahedra (any size, shared vertices) and all non-inverted configurations", "why_tests_cant": "All meshes and configurations.", "anchors": ["softy/src/energy_models/elasticity/tet_nh.rs: energy_gradient", "softy/src/energy_models/elasticity/tet_snh.rs: energy_gradient", "softy/src/energy_models/elasticity/tetsolid_nh.rs: add_energy_gradient"]}
{"id": "C46", "title": "Elastic energy is invariant under rigid motion and minimal-force at rest", "statement": "Rotating and translating the deformed element does not change its energy; in the rest shape the elastic force is zero.", "quantifier": "for all rotations, translations, shapes and parameters", "why_tests_cant": "Continuum of rigid motions.", "anchors": ["softy/src/energy_models/elasticity/tet_nh.rs", "softy/src/energy_models/elasticity/tet_snh.rs"]}
{"id": "C47", "title": "Young's modulus and Poisson ratio convert to the right Lame parameters", "statement": "Parameters given as Young's modulus and Poisson ratio, bulk and shear modulus or Lame parameters describe the same material: converting between them by the standard relations is consistent.", "quantifier": "for all Young's moduli > 0 and Poisson ratios in (-1, 1/2)", "why_tests_cant": "An identity over a continuum of materials; a test with Poisson ratio 0 cannot see it.", "anchors": ["softy/src/objects/material.rs: ElasticityParameters::{lambda, mu, lame}"]}
{"id": "C48", "title": "Small-strain response is Hooke's law with the user's parameters", "statement": "For both elasticity models, the linearised stress at rest equals Hooke's law with the Lame parameters the user supplied (the stable model re-parametrisation compensates exactly).", "quantifier": "for all Lame parameters and all small displacement gradients", "why_tests_cant": "An identity in all parameters and directions.", "anchors": ["softy/src/objects/material.rs: Elasticity::lame", "softy/src/energy_models/elasticity/tet_nh.rs", "softy/src/energy_models/elasticity/tet_snh.rs"]}
{"id": "C49", "title": "Volume penalty gradient and exact Hessian are derivatives", "statement": "The assembled gradient of the pressure energy is its derivative in every direction and the exact assembled Hessian is the derivative of the gradient, for any surface topology; index and value sequences have matching length.", "quantifier": "for all surface meshes (any number of triangles, shared and repeated vertices) and all positions", "why_tests_cant": "All topologies.", "anchors": ["softy/src/constraints/volume_change_penalty.rs: compute_penalty, penalty_jacobian_*, penalty_hessian_*"]}
{"id": "C50", "title": "Rest volume of the volume constraint is the volume of the rest shape", "statement": "The rest volume of the volume-preservation constraint equals the sum of signed volumes of its tetrahedra in the reference configuration, so the constraint is satisfied at rest.", "quantifier": "for all meshes with any number of cells and any vertex sharing", "why_tests_cant": "Only wrong when cell-vertex numbering differs from vertex numbering.", "anchors": ["softy/src/constraints/volume.rs: VolumeConstraint::try_from_mesh", "softy/src/constraints/volume_change_penalty.rs: try_from_mesh"]}
{"id": "C51", "title": "Dihedral angle tracking is continuous", "statement": "The incrementally tracked bending angle is always within pi of the previous one and equal, modulo 2 pi, to the geometric angle; angle projection returns an equivalent angle in [-pi, pi).", "quantifier": "for all previous angles (any number of windings) and geometric angles", "why_tests_cant": "Unbounded winding numbers and the branch boundaries.", "anchors": ["softy/src/objects/interior_edge.rs: project_angle, incremental_angle"]}
{"id": "C52", "title": "Element Hessian pattern: lower triangular, complete, and in lockstep with values", "statement": "The Hessian index list of a tetrahedral mesh has exactly 78 entries per element, all in the lower triangle of the global matrix, covers every coupled pair exactly once per element, and its order is the order of the values.", "quantifier": "for all meshes with four distinct vertices per cell", "why_tests_cant": "All vertex numberings of all meshes.", "anchors": ["softy/src/energy_models/elasticity/tetsolid_nh.rs: hessian_for_each, energy_hessian_indices_offset, energy_hessian_values"]}
{"id": "C53", "title": "Power-of-two rounding", "statement": "The power-of-two approximation of a positive normal number is a power of two, not larger than the number and more than half of it; zero, infinities and sign behave as documented.", "quantifier": "for all bit patterns of both float widths", "why_tests_cant": "2^64 inputs.", "anchors": ["utils/src/lib.rs: approx_power_of_two64, approx_power_of_two32"]}
{"id": "C54", "title": "Mesh Laplacian smoothing weights are an average of neighbours", "statement": "Every row of the mesh Laplacian matrix sums to one over the neighbours of a vertex, so constant fields are reproduced.", "quantifier": "for all triangle meshes", "why_tests_cant": "Fails only for edges shared by two triangles, all meshes needed.", "anchors": ["utils/src/lib.rs: build_mesh_laplacian"]}
{"id": "C55", "title": "Mode computation returns a most frequent element", "statement": "The mode function returns a value with maximal multiplicity and that multiplicity, for every non-empty sequence.", "quantifier": "for all sequences of any length", "why_tests_cant": "Unbounded.", "anchors": ["utils/src/lib.rs: mode_u32"]}
{"id": "C56", "title": "Neighbourhood caches contain every sample in range", "statement": "The cached neighbourhood of a query point contains every sample within the radius of the query point and the cache is invalidated when positions move further than allowed.", "quantifier": "for all sample sets and query points", "why_tests_cant": "All point sets.", "anchors": ["implicits/src/field/neighbor_cache.rs", "implicits/src/field.rs: compute_neighbor_cache"]}
{"id": "C57", "title": "Convergence test accepts exactly when one enabled criterion holds", "statement": "The convergence test accepts if and only if one of the enabled tolerances (value greater than zero) is satisfied; a disabled tolerance never causes acceptance.", "quantifier": "for all residuals, iterates and tolerances", "why_tests_cant": "All combinations over the reals.", "anchors": ["softy/src/fem/nl/problem.rs: converged"]}
{"id": "C58", "title": "Inertia Hessian diagonal never indexes out of range", "statement": "Adding the inertia Hessian diagonal to the diagonal of the free degrees of freedom never panics and skips exactly the vertices that are not free.", "quantifier": "for all meshes with any number of fixed vertices", "why_tests_cant": "The guard compares a vertex index with a coordinate count; only meshes with fixed vertices in a window fail.", "anchors": ["softy/src/energy_models/inertia/soft_solid.rs: add_energy_hessian_diagonal", "softy/src/energy_models/elasticity/tetsolid_nh.rs: add_energy_hessian_diagonal"]}
{"id": "C59", "title": "A failing line search does not crash the simulation", "statement": "When backtracking cannot find an acceptable step the solve continues or returns a status; it never panics.", "quantifier": "for all merit functions, all backtracking factors and all file-system states", "why_tests_cant": "Depends on the environment (existence of a directory) and a rare path.", "anchors": ["softy/src/fem/nl/newton.rs: solve_with (line search failure branch)"]}
{"id": "C60", "title": "Combined energies add up", "statement": "The energy, gradient and Hessian of a pair of energies are the sums of the parts, an absent energy contributes nothing, and index lists remain aligned with values.", "quantifier": "for all energies and states", "why_tests_cant": "All compositions.", "anchors": ["softy/src/energy_models/mod.rs: impls for (A, B), Option<E>, Either<A, B>", "softy/src/energy.rs"]}
{"id": "C61", "title": "Linear solver iterates never depend on stale state", "statement": "Solving again with the same solver object gives the same result as with a fresh one: workspace left over from a previous solve, including one that stopped early, does not influence the next.", "quantifier": "for all histories of previous solves", "why_tests_cant": "History-quantified.", "anchors": ["softy/src/fem/nl/linsolve/cr.rs", "softy/src/fem/nl/linsolve/bicgstab.rs"]}
{"id": "C62", "title": "Friction dissipates energy", "statement": "The power of the friction forces over all contacts is never positive.", "quantifier": "for all contact sets of any size, velocities, normal forces >= 0", "why_tests_cant": "All contact sets.", "anchors": ["softy/src/constraints/penalty_point_contact.rs: compute_friction_force", "softy/src/constraints/mod.rs: frictional_dissipation"]}
{"id": "C63", "title": "Radial kernel gradient and Hessian are spatial derivatives", "statement": "The gradient of a radial kernel with respect to the query point is the derivative of its value in every direction, and its Hessian is the derivative of the gradient, at every point of space including the sample itself.", "quantifier": "for all kernels, parameters, query points, sample points and directions", "why_tests_cant": "Real-valued; the case of a query exactly at a sample is never hit by random tests.", "anchors": ["implicits/src/kernel.rs: RadialKernel::eval, grad, hess"]}
{"id": "C64", "title": "Contact forces are the gradient of the contact energy", "statement": "The contact forces assembled on the vertices from the contact multipliers equal minus the gradient of the total contact penalty energy with respect to vertex positions, so the residual and the merit function describe the same contact model.", "quantifier": "for all contact sets of any size, all distance gradients and all stiffness and thickness parameters", "why_tests_cant": "Force and energy are computed by separate code; equality must hold for every contact set.", "anchors": ["softy/src/constraints/penalty_point_contact.rs: subtract_constraint_force, contact_constraint, update_multipliers"]}
{"id": "C65", "title": "Active bounds are identified exactly when the complementarity Jacobian is assembled", "statement": "A row of the complementarity Jacobian is replaced by a row of the identity exactly when, in that component, a bound rather than the force determines the residual, also when the residual has been diagonally scaled.", "quantifier": "for all forces, values, bounds l < u and positive scalings", "why_tests_cant": "Depends on the scaling factor and on which side of a bound the value is; default bounds are infinite.", "anchors": ["softy/src/fem/nl/mcp.rs: MCP::jacobian_values, MCP::jacobian_product", "softy/src/fem/nl/newton.rs: solve_with (r_cur)"]}
{"id": "C66", "title": "BiCGSTAB terminates on small systems", "statement": "In exact arithmetic the solver documented as BiCGSTAB solves an n-dimensional system in at most n iterations unless it breaks down.", "quantifier": "for all dimensions and non-singular systems", "why_tests_cant": "A finite-termination identity; floating-point runs only show slow convergence.", "anchors": ["softy/src/fem/nl/linsolve/bicgstab.rs: BiCGSTAB::solve_precond (rho initialisation)"]}
{"id": "C67", "title": "A linear solve started at the exact solution keeps it", "statement": "When the start vector already solves the system, the iterative solvers report success and return it unchanged.", "quantifier": "for all operators, right-hand sides and exact start vectors", "why_tests_cant": "A measure-zero start that warm starts can nevertheless hit.", "anchors": ["softy/src/fem/nl/linsolve/cr.rs: ConjugateResidual::solve", "softy/src/fem/nl/linsolve/bicgstab.rs: BiCGSTAB::solve_precond"]}
{"id": "C68", "title": "Reported Newton step lengths are the ones taken", "statement": "The step length recorded for each Newton iteration is the multiple of the search direction by which the iterate moved, also when the line search gives up.", "quantifier": "for all problems, directions, line search settings and histories", "why_tests_cant": "Only differs on failed line searches, by a factor, far below plotting accuracy.", "anchors": ["softy/src/fem/nl/newton.rs: solve_with (backtracking loop, IterationInfo)"]}
{"id": "C69", "title": "Adaptive smoothing decreases to the user's value in a known number of iterations", "statement": "With adaptive smoothing the friction smoothing parameters start between the user's value and one, never increase during a solve, never fall below the user's value, and equal it after at most prev_iteration_count - 3 iterations.", "quantifier": "for all user values in (0, 1], all numbers of contacts, all previous iteration counts and merit histories", "why_tests_cant": "Real powers with real exponents over unbounded histories.", "anchors": ["softy/src/fem/nl/newton.rs: solve_with (adaptive epsilon)"]}
{"id": "C70", "title": "Success is never reported for a step the line search rejected", "statement": "A nonlinear solve that reports Success ended with a step accepted by the line search.", "quantifier": "for all problems, convergence settings and Jacobians", "why_tests_cant": "Needs a failing line search together with the step-size stopping criterion.", "anchors": ["softy/src/fem/nl/newton.rs: solve_with", "softy/src/fem/nl/problem.rs: converged (x_tol)"]}
{"id": "C71", "title": "Contact stiffness adaptation is consistent and never weakens a contact arbitrarily", "statement": "During a step the stiffness of each contact and of its autodiff copy stay equal, no stiffness falls below the smaller of its previous value and 50 / tolerance, and every retry starts from the initial or last committed point.", "quantifier": "for all solver behaviours, contact violations, numbers of contacts, stages and retries", "why_tests_cant": "Depends on unbounded sequences of violations and retries.", "anchors": ["softy/src/fem/nl/solver.rs: Solver::step"]}
{"id": "C72", "title": "A failing step leaves the simulation where it was", "statement": "If a step returns an error, nothing was committed: the state is the one before the step.", "quantifier": "for all schemes, solver behaviours and contact violations", "why_tests_cant": "Only visible when the second stage of a two-stage scheme fails.", "anchors": ["softy/src/fem/nl/solver.rs: Solver::step, commit_solution"]}
{"id": "C73", "title": "The residual is the gradient of the merit objective", "statement": "For every time integration scheme the derivative of the objective (previous-force term, potential and inertia) with respect to the new velocity is the residual that the nonlinear solver drives to zero.", "quantifier": "for all schemes, parameters, histories, differentiable potentials and velocities", "why_tests_cant": "Objective and residual are separate code paths blended with two tables of factors.", "anchors": ["softy/src/fem/nl/problem.rs: compute_objective, compute_vertex_residual_impl", "softy/src/fem/nl/time_integration.rs"]}
{"id": "C74", "title": "Time integration never gains energy on linear oscillators", "statement": "For a mass on a spring, backward Euler, SDIRK2 and TR-BDF2 never increase the energy, the trapezoidal rule conserves it, and BDF2 never increases its two-step energy, for any time step and any number of steps.", "quantifier": "for all masses > 0, stiffnesses >= 0, time steps, splits in (0,1), states and step counts", "why_tests_cant": "Unconditional stability over unbounded runs and all parameters.", "anchors": ["softy/src/fem/nl/time_integration.rs", "softy/src/fem/nl/state.rs: be_step, tr_step, bdf2_step, mixed_bdf2_step, sdirk2_step", "softy/src/fem/nl/problem.rs: update_cur_vertices, compute_vertex_residual_impl"]}
{"id": "C75", "title": "The first step of a fresh problem is as accurate as the others", "statement": "Starting from a freshly built problem, the first step of every second order scheme reproduces motion with constant acceleration exactly.", "quantifier": "for all schemes, masses, accelerations, velocities and time steps", "why_tests_cant": "The start-up error is of the size of a usual discretisation error.", "anchors": ["softy/src/fem/nl/solver/builder.rs: prev_force", "softy/src/fem/nl/state.rs: GeneralizedCoords::new_chunked", "softy/src/fem/nl/problem.rs: compute_vertex_residual_impl, integrate_step"]}
{"id": "C76", "title": "Vertex types follow a fixed precedence", "statement": "A vertex is Fixed exactly when flagged, Rigid exactly when not fixed and in a rigid cell, Free exactly when neither and in a usable soft cell, and Ignored otherwise; meshes with in-range cells never panic.", "quantifier": "for all flags, cell lists and materials", "why_tests_cant": "The order of the passes matters only when cells of different materials share vertices.", "anchors": ["softy/src/fem/nl/state.rs: sort_mesh_vertices_by_type"]}
{"id": "C77", "title": "The leading internal vertices are exactly the degrees of freedom", "statement": "After sorting, the type array is aligned with the vertices and a vertex has degrees of freedom exactly when it is free or rigid.", "quantifier": "for all assignments of vertex types", "why_tests_cant": "All permutations of any size.", "anchors": ["softy/src/fem/nl/state.rs: sort_mesh_vertices_by_type, GeneralizedCoords::new_chunked"]}
{"id": "C78", "title": "Inverse masses and lumped stiffnesses", "statement": "The inverse mass is the reciprocal of the mass for free vertices and zero otherwise; the lumped stiffness of a vertex is the largest Lame parameter of the elements that contain it, or zero.", "quantifier": "for all vertex types, masses and element lists with in-range indices", "why_tests_cant": "All meshes.", "anchors": ["softy/src/fem/nl/state.rs: mass_inv, compute_lumped_vertex_stiffnesses"]}
{"id": "C79", "title": "Neo-Hookean energy is non-negative and zero exactly on rotations", "statement": "For non-negative Lame parameters the energy of a non-inverted Neo-Hookean element is non-negative, and it is zero exactly when the element is a rotated copy of its rest shape.", "quantifier": "for all non-inverted shapes, lambda >= 0, mu > 0, volume > 0", "why_tests_cant": "A lower bound over all shapes (Hadamard's inequality) with the exact zero set.", "anchors": ["softy/src/energy_models/elasticity/tet_nh.rs: energy"]}
{"id": "C80", "title": "Assembled elastic gradient with damping is the derivative of the assembled energy", "statement": "For every mesh, the gradient assembled over elements with damping is, along every change of the velocities, the derivative of the assembled energy including the damping potential, up to the factor by which velocities change positions.", "quantifier": "for all meshes of any size with shared vertices, non-inverted configurations, velocities, time steps and both elasticity models", "why_tests_cant": "Quantifies over all meshes and directions and is an exact derivative.", "anchors": ["softy/src/energy_models/elasticity/tetsolid_nh.rs: energy, add_energy_gradient"]}
{"id": "C81", "title": "Assembled elastic Hessian is the derivative of the assembled gradient", "statement": "The lower triangular triplets of a mesh, read as a symmetric matrix, are the derivative of its assembled gradient with damping; the separately assembled diagonal is the diagonal of that matrix.", "quantifier": "for all meshes with four distinct vertices per cell, configurations, directions and both elasticity models", "why_tests_cant": "Combines the index pattern, the value order, the swap of rows and columns and the element derivatives.", "anchors": ["softy/src/energy_models/elasticity/tetsolid_nh.rs: energy_hessian_indices_offset, energy_hessian_values, add_energy_hessian_diagonal"]}
{"id": "C82", "title": "Elastic damping dissipates", "statement": "The damping part of the elastic force never drives the motion: its power against the velocity is non-negative.", "quantifier": "for all damping coefficients >= 0, shapes and velocities", "why_tests_cant": "The sign changes only on strongly compressed elements.", "anchors": ["softy/src/energy_models/elasticity/tetsolid_nh.rs: energy, add_energy_gradient"]}
{"id": "C83", "title": "Matrix-free inertia product agrees with the inertia Hessian", "statement": "Multiplying a vector by the inertia Hessian without assembling it gives the product with the assembled matrix, added to the output buffer.", "quantifier": "for all meshes including shared vertices, scales and vectors", "why_tests_cant": "Only meshes with shared vertices distinguish adding from assigning.", "anchors": ["softy/src/energy_models/inertia/soft_solid.rs: energy_hessian_product", "softy/src/energy_models/inertia/soft_shell.rs: energy_hessian_product"]}
{"id": "C84", "title": "Rigid shell inertia and gravity are consistent", "statement": "The gradient of the rigid shell inertia is the derivative of its energy in linear and angular velocity, its triplets are the derivative of the gradient and its diagonal is theirs; the gravity gradient is the derivative of the gravity energy.", "quantifier": "for all masses, symmetric inertia tensors, velocities and directions", "why_tests_cant": "Exact derivatives over a continuum; a non-symmetric tensor breaks it.", "anchors": ["softy/src/energy_models/inertia/rigid_shell.rs: RigidShellInertia", "softy/src/energy_models/gravity.rs: RigidShellGravity"]}
{"id": "C85", "title": "Approximate volume Hessian omits exactly the rank-one term", "statement": "The Hessian used for the volume change penalty differs from the derivative of the pressure force by exactly the omitted product of volume derivatives.", "quantifier": "for all closed or open surfaces with shared vertices, pressures, compressions and directions", "why_tests_cant": "An exact identity over all meshes and directions.", "anchors": ["softy/src/constraints/volume_change_penalty.rs: penalty_hessian_values_iter"]}
{"id": "C86", "title": "Pressure forces balance", "statement": "The pressure forces of the volume penalty exert no net torque about the origin; on a closed surface they exert no net force and the volume does not change under translation.", "quantifier": "for all surfaces whose edges cancel, pressures and positions", "why_tests_cant": "Quantifies over all closed surfaces.", "anchors": ["softy/src/constraints/volume_change_penalty.rs: subtract_pressure_force, penalty_jacobian_values_iter"]}
{"id": "C87", "title": "Volume penalty is minimal exactly at the pressurised rest volume", "statement": "The volume penalty is minimal exactly when the current volume equals the pressurised rest volume, and its force pushes the volume towards that target.", "quantifier": "for all positive compressions, pressures and volumes", "why_tests_cant": "Minimality over a continuum.", "anchors": ["softy/src/constraints/volume_change_penalty.rs: compute_penalty, penalty_jacobian_values_iter"]}
{"id": "C88", "title": "Bending angle and its gradient agree with geometry", "statement": "The angle of an interior edge is the signed angle between the consistently oriented face normals; its gradient is the derivative of the geometric and of the tracked angle and exerts no net force or torque.", "quantifier": "for all edges shared by two triangles in either orientation, non-degenerate positions, displacements and winding numbers", "why_tests_cant": "Exact derivatives over a continuum, including the branch cut of the angle.", "anchors": ["softy/src/objects/interior_edge.rs: edge_angle, edge_angle_gradient, incremental_angle, face_area_normals"]}
{"id": "C89", "title": "Bending angle Hessian is the derivative of its gradient", "statement": "The stored blocks of the Hessian of the bending angle are the symmetric derivative of the gradient; the omitted block between the two opposite vertices is zero.", "quantifier": "for all non-degenerate positions and displacements", "why_tests_cant": "Twelve by twelve exact second derivatives with hand derived formulas.", "anchors": ["softy/src/objects/interior_edge.rs: edge_angle_hessian"]}
{"id": "C90", "title": "Reference angle is the rest angle", "statement": "The reference angle computed from reference positions equals the bending angle of the same positions.", "quantifier": "for all edges and reference positions", "why_tests_cant": "Depends on the orientation of the two faces, which test meshes share.", "anchors": ["softy/src/objects/interior_edge.rs: ref_edge_angle"]}
{"id": "C91", "title": "Kernels do not depend on the units of length", "statement": "Scaling all lengths of a kernel by a factor scales its values by a fixed power of that factor: none for the local kernels, the inverse fourth power for the global kernel, and one inverse power more for derivatives.", "quantifier": "for all kernels, scale factors and distances", "why_tests_cant": "Tests use one fixed length scale.", "anchors": ["implicits/src/kernel.rs: LocalCubic, LocalApproximate, LocalInterpolating, GlobalInvDistance2"]}
{"id": "C92", "title": "Membrane gradient of a shell triangle is the derivative of its energy", "statement": "For a triangle of positive area the gradient of the neo-Hookean membrane energy is the derivative of the energy, which is finite nearby.", "quantifier": "for all positive-area triangles, rest shapes, material parameters and displacements", "why_tests_cant": "Exact derivative over a continuum of positions and displacements.", "anchors": ["softy/src/energy_models/elasticity/tri_nh.rs: energy, energy_gradient"]}
{"id": "C93", "title": "Membrane Hessian of a shell triangle is the derivative of its gradient", "statement": "The product of the Hessian with a displacement is the derivative of the gradient, and the separately assembled lower triangle stores the same symmetric matrix.", "quantifier": "for all positive-area triangles, rest shapes, material parameters and displacements", "why_tests_cant": "Two independent hand derived formulas with out-of-plane terms.", "anchors": ["softy/src/energy_models/elasticity/tri_nh.rs: energy_hessian, energy_hessian_product_transpose, stiffness_product_tensor"]}
{"id": "C94", "title": "Membrane energy vanishes exactly for unstretched triangles", "statement": "The membrane energy is not negative and zero exactly if the triangle is isometric to its rest shape; a rest shape computed from positions makes these positions free of energy and force.", "quantifier": "for all triangles and admissible material parameters", "why_tests_cant": "Global lower bound over a continuum.", "anchors": ["softy/src/energy_models/elasticity/tri_nh.rs: energy", "softy/src/objects/trishell.rs: isotropic_tri_shape_matrix"]}
{"id": "C95", "title": "Gradient of collapsed triangles", "statement": "A triangle whose energy is infinite is not reported to be free of force.", "quantifier": "for all collapsed triangles", "why_tests_cant": "Degenerate triangles do not occur in tests.", "anchors": ["softy/src/energy_models/elasticity/tri_nh.rs: energy, energy_gradient"]}
{"id": "C96", "title": "Bending gradient is the derivative of the bending energy", "statement": "The bending gradient of an interior edge is the derivative of the bending energy of the tracked angle; the energy is not negative and vanishes exactly at the reference angle, together with the forces.", "quantifier": "for all edges, non-degenerate positions, displacements and winding numbers", "why_tests_cant": "Exact derivatives over a continuum, including the branch cut of the angle.", "anchors": ["softy/src/energy_models/elasticity/tri_nh.rs: DiscreteShellBendingEnergy"]}
{"id": "C97", "title": "Shell gradient is the derivative of the shell energy", "statement": "The assembled gradient of a shell, membrane, damping and bending, is the derivative of the assembled energy when positions follow the velocities, and assembly never indexes out of range.", "quantifier": "for all meshes with indices in range, non-degenerate positions, velocities, time steps and directions", "why_tests_cant": "Meshes of arbitrary size and connectivity.", "anchors": ["softy/src/energy_models/elasticity/trishell_nh.rs: energy, add_energy_gradient"]}
{"id": "C98", "title": "Shell Hessian is the derivative of the shell gradient", "statement": "The lower-triangular triplets of the shell Hessian form the matrix of the derivative of the assembled gradient.", "quantifier": "for all meshes with distinct vertices per element, non-degenerate positions and pairs of directions", "why_tests_cant": "45 entries per triangle and 78 per edge with index swaps.", "anchors": ["softy/src/energy_models/elasticity/trishell_nh.rs: energy_hessian_indices_offset, energy_hessian_values, tri_hessian_for_each, edge_hessian_for_each"]}
{"id": "C99", "title": "Shell Hessian pattern is lower triangular and of the announced size", "statement": "Index and value lists have the announced number of entries, every index lies in the lower triangle and inside the matrix, and values scale linearly with the scale argument.", "quantifier": "for all meshes and offsets", "why_tests_cant": "Index swaps depend on the numbering of the vertices.", "anchors": ["softy/src/energy_models/elasticity/trishell_nh.rs: energy_hessian_size, energy_hessian_indices_offset, energy_hessian_values"]}
{"id": "C100", "title": "Shell Hessian diagonal matches the matrix", "statement": "The separately accumulated diagonal equals the diagonal of the matrix given by the triplets.", "quantifier": "for all meshes, scales and initial contents", "why_tests_cant": "Two separately written loops must agree entry by entry.", "anchors": ["softy/src/energy_models/elasticity/trishell_nh.rs: add_energy_hessian_diagonal, energy_hessian_values"]}
{"id": "C101", "title": "Shell forces conserve momentum", "statement": "The forces of a shell add up to zero, and without damping so do their torques, also for degenerate elements.", "quantifier": "for all meshes, positions and velocities", "why_tests_cant": "Sums over meshes of arbitrary size.", "anchors": ["softy/src/energy_models/elasticity/trishell_nh.rs: add_energy_gradient"]}
{"id": "C102", "title": "Shell damping removes energy and leaves rigid motions alone", "statement": "Damping never increases the energy of the motion, and exerts no force on a rigid motion.", "quantifier": "for all meshes, positions and velocities", "why_tests_cant": "Sign of a quadratic form over a continuum.", "anchors": ["softy/src/energy_models/elasticity/trishell_nh.rs: add_energy_gradient"]}
{"id": "C103", "title": "Shell energy is invariant under rigid motions", "statement": "Rotating and translating a shell and rotating its velocities leaves membrane, damping and bending energy unchanged.", "quantifier": "for all meshes, positions, velocities and rigid motions", "why_tests_cant": "A continuum of motions.", "anchors": ["softy/src/energy_models/elasticity/trishell_nh.rs: energy", "softy/src/objects/interior_edge.rs: edge_angle"]}
{"id": "C104", "title": "Updating recorded angles does not change the state", "statement": "Recording the current angles leaves energy, forces and Hessian at the current positions unchanged and keeps every recorded angle equivalent to the geometric one.", "quantifier": "for all shells, positions and velocities", "why_tests_cant": "Depends on winding numbers that tests do not reach.", "anchors": ["softy/src/objects/trishell.rs: update_angles"]}
{"id": "C105", "title": "Reference merit belongs to the current smoothing parameters", "statement": "The merit an iteration must improve on was computed with the smoothing parameters of that iteration at the point it starts from, and the merit of the new point with the same parameters.", "quantifier": "for all problems whose merit is a function of parameters and point, all configurations and all runs", "why_tests_cant": "A stale value only shows up as a line search that accepts or rejects steps it should not.", "anchors": ["softy/src/fem/nl/newton.rs: solve_with (epsilon update and merit refresh)"]}
{"id": "C106", "title": "Step outcome follows from the outcomes of its solves", "statement": "A step succeeds only if all its nonlinear solves ended in Success or MaximumIterationsExceeded, commits only results of such solves, and fails only because of a failed check or of its last solve.", "quantifier": "for all solvers, schemes and contact iteration limits", "why_tests_cant": "Needs every status of the solver at every stage and contact iteration.", "anchors": ["softy/src/fem/nl/solver.rs: step"]}
{"id": "C107", "title": "Interior edges are exactly the shared manifold edges", "statement": "The edges that carry bending are exactly the edges lying in exactly two triangles of which at least one has a corner that is not fixed, each listed once with its two faces in order and consistent starts, whatever order the hash map lists its entries in.", "quantifier": "for all meshes of any cell types with three different corners per triangle, all vertex types and all orders of the hash map", "why_tests_cant": "The order of the hash map varies between runs and meshes with boundaries, non-manifold edges and other cells must all be covered.", "anchors": ["softy/src/objects/interior_edge.rs: compute_interior_edge_topology_from_mesh, EdgeTopo", "softy/src/objects/trishell.rs: DihedralElements"]}
{"id": "C108", "title": "Dihedral elements stay aligned", "statement": "Dropping edges without stiffness and renumbering faces keeps the vectors of the dihedral elements aligned: every entry describes the same edge of the mesh, the cells listed are those of the kept edges, each once, and no edge with stiffness is lost.", "quantifier": "for all meshes, stiffnesses and lists of edges", "why_tests_cant": "A misalignment needs a mesh with some edges of zero stiffness and shows up only as wrong forces.", "anchors": ["softy/src/objects/trishell.rs: DihedralElements::try_from_mesh_and_materials"]}
{"id": "C109", "title": "Bending weight", "statement": "The weight of an edge is its mean reference length over a third of the mean height of its triangles, which is 3 l^2 / (A0 + A1) for a common reference length, and it is positive.", "quantifier": "for all edges and reference positions of positive area", "why_tests_cant": "An identity over the reals.", "anchors": ["softy/src/objects/interior_edge.rs: ref_length, tile_span", "softy/src/objects/trishell.rs: DihedralElements::try_from_mesh_and_materials"]}
{"id": "C110", "title": "Triangle elements are the movable triangles of the mesh", "statement": "Exactly the triangles with a corner that is not fixed become elements, in order, with positive reference areas, inverted rest shapes and parameters from the attribute or else the material; construction never panics and every error is justified and names the offending cells.", "quantifier": "for all meshes, materials and attributes with ids and corners in range", "why_tests_cant": "Combinations of missing attributes, materials, cell types and vertex types.", "anchors": ["softy/src/objects/trishell.rs: TriangleElements::try_from_mesh_and_materials, compute_ref_tri_areas, compute_ref_tri_shape_matrix_inverses, shell_mtl_iter"]}
{"id": "C111", "title": "A shell built from its reference configuration is at rest", "statement": "A shell built from a consistently oriented mesh at its reference positions is well formed and has no energy and no forces there.", "quantifier": "for all meshes of any size, materials and attributes", "why_tests_cant": "Links the construction of elements with the energies over meshes of any size.", "anchors": ["softy/src/objects/trishell.rs: TriShell::try_from_mesh_and_materials", "softy/src/objects/interior_edge.rs: ref_edge_angle, edge_angle"]}
{"id": "C112", "title": "Tetrahedral elements are the movable tetrahedra of their model", "statement": "The elements of each solid model are exactly the tetrahedra with a movable corner whose material is a solid of that model, in mesh order, with aligned vectors, positive volumes, inverted rest shapes and parameters from the attribute or else the material; construction never panics and every error is justified and names the offending cells.", "quantifier": "for all meshes, materials and attributes with ids and corners in range", "why_tests_cant": "Combinations of models, missing attributes, materials and vertex types.", "anchors": ["softy/src/objects/tetsolid.rs: TetElements::try_from_mesh_and_materials, compute_ref_tet_signed_volumes, compute_ref_tet_shape_matrix_inverses, solid_mtl_iter"]}
{"id": "C113", "title": "A built solid is at rest and obeys Hooke's law", "statement": "A solid built at its reference positions exerts no forces there, and every element answers small displacements by Hooke's law with the Lame parameters given for its cell, whichever of the two models it uses.", "quantifier": "for all meshes of any size, materials and attributes", "why_tests_cant": "Links element construction and reparametrisation with the derivative of forces at rest.", "anchors": ["softy/src/objects/tetsolid.rs: TetSolid::try_from_mesh_and_materials", "softy/src/objects/material.rs: model, lambda, mu"]}
{"id": "C114", "title": "Mass and force attributes of solids cover all corners", "statement": "The mass attribute of the vertices distributes the mass of every tetrahedron over its corners and nothing is lost; every corner receives its share of mass and its elastic force.", "quantifier": "for all lists of elements", "why_tests_cant": "Output attributes are only looked at by eye.", "anchors": ["softy/src/objects/tetsolid.rs: compute_vertex_masses, add_elastic_forces"]}
{"id": "C115", "title": "Material ids are normalised", "statement": "After initialisation every cell has one material id and it is the index of a material; ids that are valid are kept, all others become zero, and integer ids of any type are accepted.", "quantifier": "for all attributes and numbers of materials", "why_tests_cant": "Needs every attribute type and out of range values.", "anchors": ["softy/src/fem/nl/solver/builder.rs: init_cell_vertex_ref_pos_attribute, init_material_id_attribute, normalize_id"]}
{"id": "C116", "title": "Fixed flags are normalised", "statement": "A vertex is fixed exactly if its flag is not zero, whatever integer type the flags have.", "quantifier": "for all flags of all integer types", "why_tests_cant": "Needs values beyond the range of the target type.", "anchors": ["softy/src/fem/nl/solver/builder.rs: init_fixed_attribute"]}
{"id": "C117", "title": "Mesh sizes of vertices", "statement": "The relative mesh size of a vertex is the least size of the cells around it, and vertices without cells are reported exactly.", "quantifier": "for all meshes of any size", "why_tests_cant": "A minimum over arbitrary neighbourhoods.", "anchors": ["softy/src/fem/nl/solver/builder.rs: init_relative_mesh_size_attribute"]}
{"id": "C118", "title": "Force scales", "statement": "The smallest and largest force scales are the extremes of the scales of elasticity, inertia (if dynamic), gravity (if any) and bending; they are positive and scaling never loosens the residual tolerance given by the user.", "quantifier": "for all time steps and gravities", "why_tests_cant": "Case split over static, dynamic and weightless set-ups.", "anchors": ["softy/src/fem/nl/solver/builder.rs: build (force scales)", "softy/src/fem/nl/problem.rs: min_element_force_scale, max_element_force_scale"]}
{"id": "C119", "title": "Free vertices have mass", "statement": "In a built problem masses add up to the masses of elements, every free vertex has positive mass and its inverse, and all others have inverse mass zero.", "quantifier": "for all well formed inputs with positive densities", "why_tests_cant": "Depends on the interplay of vertex types, sorting and element selection.", "anchors": ["softy/src/fem/nl/solver/builder.rs: build_problem, compute_vertex_masses", "softy/src/fem/nl/state.rs: sort_mesh_vertices_by_type"]}
{"id": "C120", "title": "Contacts are set up as asked", "statement": "Every requested contact is recorded, and the built problem has one constraint per request, in order, between surfaces of the two objects named, with the tolerance and stiffness asked for (one over the tolerance when none is given), and whose object is fixed exactly if all its vertices are.", "quantifier": "for all lists of requests", "why_tests_cant": "Any number of requests and objects.", "anchors": ["softy/src/fem/nl/solver/builder.rs: add_frictional_contact, build_contact_constraints, build_contact_surfaces"]}
{"id": "C121", "title": "Building a problem never panics and its errors are justified", "statement": "Building a problem from a mesh either succeeds or returns an error that is justified by the input; it does not panic.", "quantifier": "for all inputs of any size", "why_tests_cant": "An exhaustive case split over inputs; panics come from combinations.", "anchors": ["softy/src/fem/nl/solver/builder.rs: build_problem", "softy/src/fem/nl/state.rs: sort_mesh_vertices_by_type"]}
{"id": "C122", "title": "The built problem is the given mesh at rest", "statement": "The mesh of the built problem is the given one up to the order of its vertices, with mutually inverse index vectors and unchanged cells and positions, and without reference attributes it is in equilibrium: no element exerts a force.", "quantifier": "for all well formed inputs with oriented triangles", "why_tests_cant": "Links sorting, construction of all elements and their forces.", "anchors": ["softy/src/fem/nl/solver/builder.rs: build_problem", "softy/src/fem/nl/state.rs: sort_mesh_vertices_by_type", "softy/src/objects/tetsolid.rs", "softy/src/objects/trishell.rs"]}
{"id": "C123", "title": "The potential is a weighted average", "statement": "The implicit potential lies between any bounds of the signed distances to the planes of its neighbours and of the background; within the support of a neighbour an unweighted background has no influence, and outside all supports the potential is the background.", "quantifier": "for all samples, neighbourhoods, query points and kernels", "why_tests_cant": "Any number of neighbours at any distances.", "anchors": ["implicits/src/field.rs: compute_potential_at, compute_local_potential_at", "implicits/src/field/background_field.rs: new_impl, background_weight"]}
{"id": "C124", "title": "The query Jacobian is the derivative of the potential", "statement": "The Jacobian of the potential with respect to the query point is its directional derivative in every direction, for every kernel and background; a hint of the nearest sample does not change it.", "quantifier": "for all samples, neighbourhoods and query points at regular distances", "why_tests_cant": "A statement about limits of a quotient of sums of kernels.", "anchors": ["implicits/src/field/jacobian.rs: query_jacobian_at, sample_query_jacobian_at", "implicits/src/field/background_field.rs: compute_query_jacobian"]}
{"id": "C125", "title": "The sample Jacobian is the derivative of the potential", "statement": "The blocks of the Jacobian with respect to the samples are the derivatives of the potential as the samples of the neighbourhood move in any directions.", "quantifier": "for all samples, neighbourhoods and velocities of samples", "why_tests_cant": "A statement about limits, with all samples moving at once.", "anchors": ["implicits/src/field/jacobian.rs: sample_jacobian_at, local_sample_jacobian_at", "implicits/src/field/background_field.rs: compute_jacobian, compute_sample_jacobian"]}
{"id": "C126", "title": "The potential moves with the surface and changes sign when normals are reversed", "statement": "A rigid motion of samples and query point leaves the potential unchanged; reversing the normals negates it.", "quantifier": "for all rotations, translations, samples and kernels", "why_tests_cant": "Over all rigid motions; reversal depends on the values of the samples.", "anchors": ["implicits/src/field.rs: compute_potential_at, reverse"]}
{"id": "C127", "title": "Cache changes are reported", "statement": "Resetting the neighbourhood caches reports a change exactly if the cached sets changed.", "quantifier": "for all surfaces, query points and previous caches", "why_tests_cant": "Depends on collisions of a 64 bit hash that no test will hit.", "anchors": ["implicits/src/field/neighbor_cache.rs: compute_neighborhoods, compute_hash", "implicits/src/field/query.rs: reset"]}
{"id": "C128", "title": "Cached neighbourhoods give the full potential", "statement": "The potential evaluated from cached neighbourhoods, after surface and query points moved within the allowed step, is the potential over all samples.", "quantifier": "for all surfaces, query points and moves within the step", "why_tests_cant": "Quantifies over all moves and arrangements of samples, including ties.", "anchors": ["implicits/src/field/query.rs: compute_potential, update_surface", "implicits/src/field.rs: compute_potential_at"]}
{"id": "C129", "title": "Sparsity patterns of the implicit Jacobians are exact", "statement": "The index lists of the query, surface and contact Jacobians have the announced number of entries, all in range, and list exactly the query points and vertices on which the potential may depend; the reported vertices of the neighbourhoods are those vertices.", "quantifier": "for all well formed surfaces and caches", "why_tests_cant": "Any mesh connectivity and any pattern of empty neighbourhoods.", "anchors": ["implicits/src/field/jacobian.rs: query_jacobian_indices_iter, surface_jacobian_indices_iter, contact_jacobian_indices_iter", "implicits/src/field/query.rs: neighborhood_vertex_indices"]}
{"id": "C130", "title": "Parallel chunks visit every row once", "statement": "Splitting the rows of the query Jacobian among workspaces visits every query point with a nonempty neighbourhood exactly once, with its own row number, for every number of points and workspaces; ranges are split into consecutive chunks.", "quantifier": "for all numbers of points and workspaces", "why_tests_cant": "Off-by-one errors depend on divisibility.", "anchors": ["implicits/src/field/jacobian.rs: query_jacobian_indexed_block_par_chunks_impl", "implicits/src/field/query.rs: split_range_into_chunks"]}
{"id": "C131", "title": "Projection onto a side of a level set lands where it says", "statement": "When the projection of query points to the side above or below a level of the implicit potential reports convergence, every point is on that side or has a zero gradient, every moved point is at most the thickness beyond the level, points that already were on the side are not moved, and every point took at most twenty steps along its gradients. It panics exactly when the number of points differs from that of the cached neighbourhoods.", "quantifier": "for all surfaces, kernels, backgrounds other than the input one, points, levels and thicknesses", "why_tests_cant": "Nested line searches over many points share one convergence flag; tests cannot enumerate potentials.", "anchors": ["implicits/src/field/query.rs: project"]}
{"id": "C132", "title": "Projection is exact for planar surfaces", "statement": "On a surface with a global kernel whose samples lie in a plane with unit normals along its normal, projection converges, and every point short of the level ends exactly half the thickness beyond it, on the normal through its old position.", "quantifier": "for all planes, samples on them, points, levels and thicknesses", "why_tests_cant": "Needs every plane and every placement of samples and points.", "anchors": ["implicits/src/field/query.rs: project"]}
{"id": "C133", "title": "Projection reports failure only for points that are not projected", "statement": "A projection that reports failure leaves some point on the wrong side or too far beyond the level; points on the right side are never moved; points out of reach of every sample are judged by the background value of the surface.", "quantifier": "for all surfaces, points, levels and thicknesses", "why_tests_cant": "Fails only on the twentieth iteration, with input backgrounds over several iterations, or with empty neighbourhoods.", "anchors": ["implicits/src/field/query.rs: project"]}
{"id": "C134", "title": "Updates of a surface, its radius and its maximal step change what they name and nothing else", "statement": "Moving a surface replaces as many vertices as are given, puts every sample at its vertex or centroid with the area normals of the moved triangles, and keeps triangles and values; a search tree that is rebuilt is current, and searches on it are complete even if it is not rebuilt. A new radius multiplier sets the radius of neighbourhoods and kernel to the same value and keeps the tolerance; a new maximal step sets the step only; with a global kernel every sample is a neighbour of every point.", "quantifier": "for all surfaces, vertex positions, kernels and multipliers", "why_tests_cant": "Wrong correspondence of samples and vertices shows only on meshes that are not symmetric.", "anchors": ["implicits/src/field.rs: ImplicitSurfaceBase::update", "implicits/src/field/query.rs: update_radius_multiplier, update_max_step, new", "implicits/src/field/samples.rs: update_triangle_samples"]}
{"id": "C135", "title": "The surface Jacobian is the derivative in the vertices of the surface", "statement": "After the caches are reset, every row of the Jacobian of the potential in the surface vertices, applied to any velocities of the vertices, is the derivative of the value returned by potential after updating the surface with the moved vertices, for samples on vertices and on faces, including the rotation of the area weighted normals. Values computed without indices are in the order of the indices computed without values; an update puts every sample where the vertices put it.", "quantifier": "for all meshes with distinct corners, kernels, query points with a unique nearest sample in range, and velocities of vertices", "why_tests_cant": "The chain through positions and normals of a ring of triangles is checked by finite differences on a few platonic solids only.", "anchors": ["implicits/src/field/jacobian.rs: vertex_jacobian_at, face_jacobian_at, surface_jacobian_iter_impl, surface_jacobian_par_iter_impl", "implicits/src/field.rs: compute_vertex_unit_normal_gradient_product, compute_face_unit_normals_gradient_products, scaled_tangent_projection"]}
{"id": "C136", "title": "Surfaces are built consistent and as asked", "statement": "Building from a triangle mesh yields triangles around vertices that are exactly the incident ones, a search tree over the samples, samples at the vertices or centroids with area weighted normals unless normals are given, values and velocities from the attributes, and the kernel, background field, sample type, maximal step and radius of the parameters. It panics exactly for bad vertex indices, or when a radius must be computed without triangles; it declines exactly for HRBF kernels, zero multipliers, and faces to sample when there are none. Point clouds never panic and decline exactly without normals, points, or a radius for a local kernel.", "quantifier": "for all meshes whose attributes have one entry per element, and all parameters", "why_tests_cant": "Whether a builder leaves the search tree, dual topology and attributes in agreement is only seen through later queries; tests build a handful of closed meshes.", "anchors": ["implicits/src/field/builder.rs: build_base, build_mls, build_local_mls, compute_dual_topo", "implicits/src/lib.rs: mls_from_trimesh, mls_from_pointcloud"]}
{"id": "C137", "title": "The computed base radius is the smallest, and reaches the whole surface", "statement": "The base radius computed from a triangle mesh bounds the distance of every corner from the centroid of its triangle, and one corner attains it. With a radius multiplier of at least one, every query point on the surface has, after a reset of the caches, the face sample of its triangle or a corner of its triangle among its neighbours, within the kernel radius.", "quantifier": "for all valid triangle meshes, points of their triangles, sample types, and faithful search trees", "why_tests_cant": "The farthest point of a triangle from all three corners depends on its shape; tests use near-equilateral triangles.", "anchors": ["implicits/src/field/builder.rs: compute_base_radius, build_base_radius", "implicits/src/field/query.rs: reset"]}
{"id": "C138", "title": "The builder rejects what its documentation says it rejects", "statement": "The documentation of the builder says that it returns None if points are empty or the base radius is zero, that offsets are read from an attribute named offsets, and lets velocities be given by an attribute.", "quantifier": "for all meshes and parameters", "why_tests_cant": "Degenerate inputs of the builder are not tested.", "anchors": ["implicits/src/field/builder.rs: build_base, build_mls, vertex_offsets, trimesh", "implicits/src/field.rs: update_samples"]}
{"id": "C139", "title": "Normals are turned to the gradient by the least rotation", "statement": "The rotation used by the contact Jacobian takes the unit normal of a sample to the gradient of the potential and leaves alone what is orthogonal to both.", "quantifier": "for all unit normals and gradients", "why_tests_cant": "The rotation is a closed formula that is a rotation only for unit vectors; tests compare the Jacobian with its own product.", "anchors": ["implicits/src/field/jacobian.rs: rodrigues_rotation, sample_contact_jacobian_at"]}
{"id": "C140", "title": "The contact Jacobian is an average of turned vectors", "statement": "The matrices of a query point are weights times matrices; the weights are non-negative, in proportion to the kernel and the agreement of the normal with the gradient, and add up to one unless all are zero; carried vectors are no longer than the longest, normals are carried to the gradient, and over flat patches the map is the weighted mean, so that translations are kept.", "quantifier": "for all samples with non-zero normals, kernels, and query points away from the samples", "why_tests_cant": "Weights and turns depend on all samples in range; tests use one mesh and random multipliers.", "anchors": ["implicits/src/field/jacobian.rs: contact_jacobian_at, weight_nml_sum_inv", "implicits/src/kernel.rs: NormalKernel"]}
{"id": "C141", "title": "Contact matrices, their indices and their products agree", "statement": "The blocks of the contact Jacobian are as many as promised and in the order of the indices computed without values; a row times vectors at the vertices is what the matrices of the query point make of the vectors of the samples, the mean over the corners for faces; the product computed without matrices is the product with the block matrix, row by row.", "quantifier": "for all surfaces, neighbourhoods in range, query points and multipliers", "why_tests_cant": "Indices, matrices and products are computed by three loops; tests compare them on one mesh where every point sees the surface.", "anchors": ["implicits/src/field/jacobian.rs: contact_jacobian_matrices_impl, contact_jacobian_matrix_indices_iter, contact_jacobian_product_values_impl, vertex_contact_jacobian_product_at, face_contact_jacobian_product_at"]}
{"id": "C142", "title": "The vector field interpolates the vectors of the samples", "statement": "Each query point gets the vector that the contact Jacobian makes of the vectors of the samples; points that see no sample keep theirs; constant vectors are reproduced.", "quantifier": "for all samples, kernels and query points", "why_tests_cant": "Nothing tests the vector field.", "anchors": ["implicits/src/field.rs: compute_local_vector_at", "implicits/src/field/query.rs: compute_vector_field"]}
{"id": "C143", "title": "Selecting contacts keeps the rows of the Jacobian", "statement": "The Jacobian of the active contacts has one row per active contact, which is the row of that query point; points that see the surface are exactly the active ones, so that only zero rows are left out; the full Jacobian takes the velocities of all vertices to the velocity of the surface at the contact less that of the contact point; all indices are in range.", "quantifier": "for all surfaces, neighbourhoods in range, selections without repetition and index maps", "why_tests_cant": "Rows are renumbered through a reverse map and columns through index lists; tests use a single body where the maps are identities.", "anchors": ["softy/src/contact.rs: TripletContactJacobian::from_selection, from_selection_reindexed_full", "softy/src/constraints/penalty_point_contact.rs: precompute_contact_jacobian"]}
{"id": "C144", "title": "Mapped sparse matrices store and refresh the sum of their blocks", "statement": "A matrix built from indexed blocks stores every wanted place once, in row-major order, with the sum of the blocks given for it, and remembers for each block its own place; refreshing the values through these places gives what building the matrix anew would.", "quantifier": "for all lists of indexed blocks and all commutative sums", "why_tests_cant": "Order, repetition and out-of-range indices of the blocks are arbitrary; a wrong place shows only as slow convergence.", "anchors": ["softy/src/constraints/penalty_point_contact.rs: MappedDistanceGradient::new, MappedContactJacobian::from_triplets, MappedContactGradient::from_triplets, MappedSSBlockMatrix3::from_triplets, update_values"]}
{"id": "C145", "title": "Refreshed contact Jacobian and gradient are those of the moved surface", "statement": "The contact Jacobian that is assembled acts like the selected rows of the contact matrices; after the surface and the points have moved, as long as the points see the same samples, refreshing the Jacobian and the gradient gives the matrices of the moved surface.", "quantifier": "for all pairs of states with the same connectivity and neighbourhoods", "why_tests_cant": "The refresh relies on the order of the blocks being a function of the neighbourhoods only.", "anchors": ["softy/src/constraints/penalty_point_contact.rs: update_contact_jacobian, update_contact_gradient, precompute_contact_jacobian"]}
{"id": "C146", "title": "Contact and distance gradients are adjoint to velocities and give the forces", "statement": "The contact gradient is the adjoint of the map from velocities to relative velocities at the contacts, also when a vertex lies on both sides; the distance gradient times the multipliers is the force that is subtracted block by block; refreshing it is building it anew.", "quantifier": "for all velocities, contact forces, multipliers and index maps in range", "why_tests_cant": "The products are computed along different paths in residual and Jacobian of the solver; tests do not compare them.", "anchors": ["softy/src/constraints/penalty_point_contact.rs: MappedContactGradient, MappedContactJacobian::mul, reset_distance_gradient, update_constraint_gradient, subtract_constraint_force"]}
{"id": "C147", "title": "Derivatives of the contact basis", "statement": "The contact normal has unit length, points against the gradient of the implicit function, and moves by the Jacobian of the code; a vector given in contact coordinates, and the contact coordinates of a vector, move by the products of the code, as long as one component of the normal is larger than the others; where two are of equal size the basis should still have a derivative.", "quantifier": "for all non-zero gradients, multipliers and motions", "why_tests_cant": "The products chain derivatives of two normalisations and a cross product; tests differentiate at a few random points, never at ties.", "anchors": ["softy/src/constraints/point_contact.rs: contact_normals", "softy/src/constraints/penalty_point_contact.rs: contact_basis_matrix_jacobian_product", "softy/src/contact.rs: ContactBasis::update_from_normals"]}
{"id": "C148", "title": "Assembled derivatives of contact bases", "statement": "When the blocks of second derivatives describe how the gradients move with the vertices, the blocks of the contact basis product describe how the products move, contact by contact, whatever the selection of contacts and the index maps; the gradient product is the transpose of these blocks restricted to free vertices.", "quantifier": "for all selections, index maps, multipliers and motions of all vertices", "why_tests_cant": "Contacts, query points and vertices use three numberings; tests use few contacts with trivial maps.", "anchors": ["softy/src/constraints/penalty_point_contact.rs: contact_basis_matrix_jacobian_product, build_contact_basis_gradient_product_from_selection"]}
{"id": "C149", "title": "Hessian of the implicit function in the query point", "statement": "The 3x3 matrix computed for a query point is symmetric, is the derivative of the gradient of the implicit function along every line through the point, and is the second derivative of the potential in every pair of directions.", "quantifier": "for all kernels, background fields, samples and query points with a unique nearest sample, away from the samples and from the rim of the kernel", "why_tests_cant": "The matrix combines first and second derivatives of weights, of their sum and of the background; tests compare a few random points by automatic differentiation.", "anchors": ["implicits/src/field/hessian.rs: query_hessian_at, normalized_neighbor_weight_hessian, sym_outer", "implicits/src/field/background_field.rs: compute_query_hessian, background_weight_hessian, field_hessian", "implicits/src/kernel.rs: RadialKernel::hess"]}
{"id": "C150", "title": "Layout of the query Hessian", "statement": "The Hessian product has one block per query point with neighbours, in order, multiplied by the multiplier of that query point; its values and index pairs are the lower triangle of the block diagonal matrix, and both have the announced length.", "quantifier": "for all query topologies, query points and multipliers", "why_tests_cant": "Query points without neighbours shift the multipliers; tests have neighbours everywhere.", "anchors": ["implicits/src/field/hessian.rs: query_hessian_product_indexed_blocks_iter_impl, query_hessian_product_values_impl, query_hessian_product_indices_iter"]}
{"id": "C151", "title": "Derivative of the gradient in the surface vertices", "statement": "The blocks listed for a query point, one for each corner of a neighbouring triangle and no corner twice, turn velocities of the vertices into the rate at which the gradient at the query point changes; the index iterator lists the same places.", "quantifier": "for all surfaces sampled on faces, kernels, background fields, motions of the vertices and query points", "why_tests_cant": "The background enters through the nearest sample only; tests of this matrix use a background without weight.", "anchors": ["implicits/src/field/hessian.rs: sample_query_hessian_product_indexed_blocks_iter_impl, sample_query_hessian_component_at, normalized_neighbor_weight_vertex_hessian", "implicits/src/field/jacobian.rs: normalized_neighbor_weight_vertex_gradients"]}
{"id": "C152", "title": "Hessian of the implicit function in the surface vertices", "statement": "The index pairs and values computed for a surface sampled on faces are the lower triangle of the second derivative, in the coordinates of all vertices, of the sum of the potentials at the query points with their multipliers; after a reset of the caches these potentials are the ones the public function returns, as the vertices move in any direction and the surface is updated.", "quantifier": "for all face-sampled surfaces with proper triangles, kernels, background fields, multipliers, motions of the vertices and query points with a unique nearest sample, away from the samples and the rim of the kernel", "why_tests_cant": "Weights, background, normals and centroids all depend on shared vertices, so every entry is a sum over pairs of triangles; tests check a few meshes by automatic differentiation.", "anchors": ["implicits/src/field/hessian.rs: face_hessian_at, sample_hessian_at, normal_hessian_at, face_unit_normals_symmetric_jacobian, compute_face_unit_normals_hessian_products", "implicits/src/field/background_field.rs: hessian_blocks, hessian_block_indices"]}
{"id": "C153", "title": "Layout of the surface Hessian", "statement": "Block indices, computed without values, are those of the blocks; all lie at or below the diagonal and within the vertices; the scalar entries are those of the blocks at or below the diagonal; counts, index buffers and scaled values agree in order. Vertex samples are rejected everywhere.", "quantifier": "for all query topologies, query points and multipliers", "why_tests_cant": "Two iterators written independently have to produce the same order for every neighbourhood; tests compare their lengths.", "anchors": ["implicits/src/field/hessian.rs: face_hessian_indices_iter, sample_hessian_indices, surface_hessian_product_indices_iter, surface_hessian_product_indices, surface_hessian_product_values_iter_impl, surface_hessian_product_values_impl, num_surface_hessian_product_entries"]}
{"id": "C154", "title": "Multipliers of the surface Hessian", "statement": "With one multiplier for each query point the surface Hessian is the second derivative of the sum of the potentials with their multipliers.", "quantifier": "for all query topologies and multipliers", "why_tests_cant": "A query point without neighbours has to come before one with neighbours.", "anchors": ["implicits/src/field/hessian.rs: surface_hessian_product_scaled_values, surface_hessian_product_indexed_blocks_iter_impl"]}
{"id": "C155", "title": "Contact force assembled from an implicit surface", "statement": "The force that a penalty contact subtracts from the residual is the derivative of the contact energy in the positions of all vertices, those of the implicit surface and those of the collider: renumbering of constraints, selection of vertices and the fixed side included.", "quantifier": "for all face-sampled contact surfaces, colliders, kernels, background fields, states and motions that leave the fixed side in place, at points where the potential is smooth", "why_tests_cant": "Rows are numbered by the points that have neighbours and columns by subsets of vertices; a test with one object and all points in contact cannot tell the numberings apart.", "anchors": ["softy/src/constraints/penalty_point_contact.rs: update_state, distance_potential, update_multipliers, subtract_constraint_force, distance_jacobian_blocks_iter_fn"]}
{"id": "C156", "title": "Contact Hessian assembled from an implicit surface", "statement": "The values of the contact Hessian are the negative of the second derivative of the contact energy in the positions of the vertices that may move, and the matrix is symmetric: the blocks of the surface, of the collider and between them, mirrored, and the product of the distance gradient with its transpose.", "quantifier": "for all contacts as in the property of the force, whose surface and collider share no vertex, all numbers of moving vertices and all motions of these", "why_tests_cant": "Four families of blocks are written by four iterators under two numberings; the sum is right for every mesh only if each is.", "anchors": ["softy/src/constraints/penalty_point_contact.rs: constraint_hessian_indexed_values_iter, object_distance_potential_hessian_indexed_blocks_iter, object_collider_distance_potential_hessian_indexed_blocks_iter, collider_distance_potential_hessian_indexed_blocks_iter, update_constraint_gradient"]}
{"id": "C157", "title": "Layout of the contact Hessian", "statement": "The indices reported when the sparsity is built are, in order, the indices of the values reported at every later state with the same neighbourhoods; all lie among the moving coordinates; size and diagonal counts agree with them and the space reserved suffices.", "quantifier": "for all contacts, states and numbers of moving vertices", "why_tests_cant": "Values are later written through a map built from the indices; one missing or swapped pair shifts all later values for some mesh only.", "anchors": ["softy/src/constraints/penalty_point_contact.rs: constraint_hessian_indices_iter, constraint_hessian_size, num_hessian_diagonal_nnz", "softy/src/fem/nl/problem.rs: jacobian_nnz"]}
{"id": "C158", "title": "Contact Hessian at shared vertices", "statement": "The values of the contact Hessian are the negative of the second derivative of the contact energy also when a vertex belongs to the surface and to the collider.", "quantifier": "for all contacts", "why_tests_cant": "Two objects of one mesh have to share a vertex that is in contact.", "anchors": ["softy/src/constraints/penalty_point_contact.rs: constraint_hessian_indexed_values_iter (mirroring of off-diagonal blocks)"]}
{"id": "C159", "title": "Residual of the whole problem", "statement": "The residual of a time step is the derivative of its objective by the velocities of the vertices that may move: elastic forces and damping of both solid materials and of shells, gravity, pressure of enclosed volumes, contact, the previous force of trapezoidal schemes and momentum, each with the factor of the time integrator; the objective is finite nearby.", "quantifier": "for all meshes, materials, volumes, contacts, time integrators, numbers of moving vertices, states where no element is inverted or collapsed and no contact is at a kink, and directions", "why_tests_cant": "Line search with the merit function of the objective is only sound if both are the same function; a factor that is wrong for one integrator or one energy shows up only in a scene that combines them.", "anchors": ["softy/src/fem/nl/problem.rs: compute_objective, compute_vertex_residual_impl, subtract_force, subtract_constraint_forces, add_momentum_diff, residual, update_state"]}
{"id": "C160", "title": "Jacobian of the whole problem", "statement": "The matrix given to the linear solver is symmetric, and its quadratic form is the second derivative of the objective by the velocities of the vertices that may move.", "quantifier": "for all problems as in the property of the residual whose volumes use the exact Hessian and whose contacts do not share vertices", "why_tests_cant": "Indices and values are written by separate functions, lower triangles are mirrored afterwards, and constraints are appended with factors of their own; a value in the wrong place still gives a convergent but slow solve.", "anchors": ["softy/src/fem/nl/problem.rs: jacobian_indices, compute_jacobian_indices, jacobian_values, jacobian_values_with_constraints"]}
{"id": "C161", "title": "Layout of the Jacobian of the whole problem", "statement": "Updating never fails; the number of entries and their indices do not depend on the state; values and indices have the same number; the space reserved suffices, so that no entry of a volume or contact is cut off; all indices are below the number of coordinates.", "quantifier": "for all well formed problems, velocities and both values of the rebuild flag", "why_tests_cant": "Entries that do not fit are dropped silently by zipped iterators.", "anchors": ["softy/src/fem/nl/problem.rs: jacobian_nnz, compute_jacobian_indices, jacobian_values"]}
{"id": "C162", "title": "Diagonal of the Jacobian and the Jacobi preconditioner", "statement": "The diagonal assembled for preconditioning is the diagonal of the Jacobian without constraints; the preconditioner is positive, scales every diagonal entry of size at least the square of the machine epsilon to one and leaves smaller ones.", "quantifier": "for all well formed problems, static or moving", "why_tests_cant": "Diagonal and matrix come from separate code for every energy; a difference only changes the number of iterations of the linear solver.", "anchors": ["softy/src/fem/nl/problem.rs: jacobian_diagonal_impl, compute_incomplete_jacobi_preconditioner"]}
{"id": "C163", "title": "Derivative of the rotation from a normal to the gradient", "statement": "The product rule block of the rotation that takes the normal of a sample to the gradient is the derivative of its product, or that of its transpose, with a fixed vector; the gradient of the normal kernel is the derivative of the weight of a normal.", "quantifier": "for all moving normals and gradients that are not opposite, fixed vectors, and both transposition flags", "why_tests_cant": "The block has three terms that mix cross products and an outer product; a sign that is wrong only for the transpose shows in no test of the untransposed product.", "anchors": ["implicits/src/field/hessian.rs: rodrigues_rotation_jacobian_product_at", "implicits/src/kernel.rs: NormalKernel::grad"]}
{"id": "C164", "title": "Derivative of products with the contact Jacobian", "statement": "When query points and surface move, the contact Jacobian times vectors fixed at the vertices changes at the rate given by the two iterators of blocks: those in the vertices of the surface times the velocities of the vertices, plus those in the query points times their velocities.", "quantifier": "for all face sampled surfaces without weighted background, neighbourhoods, listings of the hash set, valid kernels, motions of surface and query points where one sample is strictly nearest, kernels are smooth and no normal is opposite to the gradient, and all multipliers", "why_tests_cant": "The rate mixes derivatives of weights, of the weight sum, of the gradient and of normals through vertices of several triangles; a missing part is small in most scenes.", "anchors": ["implicits/src/field/hessian.rs: contact_jacobian_jacobian_product_indexed_blocks_iter, contact_query_jacobian_jacobian_product_indexed_blocks_iter, contact_jacobian_jacobian_at, sample_contact_jacobian_gradient_product_at, query_contact_jacobian_gradient_product_at, jacobian_gradient_phi", "implicits/src/field/jacobian.rs: normalized_neighbor_weight_nml_gradient, normalized_neighbor_weight_nml_vertex_gradients"]}
{"id": "C165", "title": "Derivative of products with the transposed contact Jacobian", "statement": "The transpose of the contact Jacobian times vectors fixed at the query points that see the surface changes at the rate given by the two Hessian iterators.", "quantifier": "for all surfaces, motions and multipliers as in the property of the contact Jacobian; multipliers one after the other for query points with neighbours", "why_tests_cant": "The multipliers are compacted while the blocks carry indices of query points and vertices; a mistake in the pairing cancels when every query point has neighbours.", "anchors": ["implicits/src/field/hessian.rs: contact_hessian_product_indexed_blocks_iter, contact_query_hessian_product_indexed_blocks_iter, contact_hessian_at"]}
{"id": "C166", "title": "Layout of derivatives of the contact Jacobian", "statement": "The places of the blocks depend only on neighbourhoods and triangles: whatever query points and multipliers are, the four iterators give blocks at the same places, which are exactly the pairs of a query point and a vertex it sees, the diagonal of query points with neighbours, pairs of vertices seen by the same query point, and pairs of a vertex and a query point that sees it. Surfaces sampled at vertices are refused.", "quantifier": "for all well formed surfaces, neighbourhoods in range, listings of the hash set, query points and multipliers of the right number", "why_tests_cant": "Sparsity patterns are reused between iterations; a pattern that depends on values breaks only when the values change.", "anchors": ["implicits/src/field/hessian.rs: contact_jacobian_jacobian_product_indexed_blocks_iter, contact_query_jacobian_jacobian_product_indexed_blocks_iter, contact_hessian_product_indexed_blocks_iter, contact_query_hessian_product_indexed_blocks_iter"]}
{"id": "C167", "title": "The friction Jacobian is the derivative of the friction force", "statement": "The entries of the friction Jacobian are the negative derivatives of the friction force on the vertices in their velocities, positions moving by the time step times the velocities: relative velocities, normal forces, contact bases and contact matrices all follow the motion.", "quantifier": "for all face sampled implicit surfaces with unweighted background, meshes, states reached by updates, valid friction parameters without viscosity, smooth contacts and velocities, motions that leave fixed sides in place, and all vertices free", "why_tests_cant": "Six products of sparse matrices are added, among them second and third derivatives of the implicit function; solvers converge with some of them missing or wrong.", "anchors": ["softy/src/constraints/penalty_point_contact.rs: friction_jacobian_indexed_value_iter, contact_constraint_jac_product_map, build_contact_jacobian_gradient_product, build_contact_jacobian_jacobian_product, contact_basis_matrix_jacobian_product, compute_friction_force, update_sliding_basis"]}
{"id": "C168", "title": "The lagged friction Jacobian is the derivative of the lagged friction force", "statement": "With contacts, normal forces and bases of the previous state the entries of the friction Jacobian are the negative derivatives of the friction force in the velocities of the vertices that may move.", "quantifier": "for all states reached by updates, valid friction parameters, smooth velocities, and numbers of vertices that may move", "why_tests_cant": "The Jacobian is a product of five sparse matrices filtered by vertex; a block that is transposed or dropped is symmetric in many scenes.", "anchors": ["softy/src/constraints/penalty_point_contact.rs: friction_jacobian_indexed_value_iter, compute_friction_force, subtract_friction_force"]}
{"id": "C169", "title": "The incomplete friction Jacobian follows velocities and normal forces", "statement": "With bases and contact matrices of the current state held fixed, the entries of the incomplete friction Jacobian are the negative derivatives of the friction force, normal forces following the positions.", "quantifier": "for all surfaces, states and parameters as for the full Jacobian, and numbers of vertices that may move", "why_tests_cant": "The change of the normal forces is added by merging sorted rows of two sparse matrices; a skipped row looks like a contact without pressure.", "anchors": ["softy/src/constraints/penalty_point_contact.rs: friction_jacobian_indexed_value_iter, contact_constraint_jac_product_map"]}
{"id": "C170", "title": "Friction is the gradient of the lagged friction potential", "statement": "With the state of the previous step the friction force is the negative derivative of the friction potential in the velocities, scaled by the derivative of positions by velocities.", "quantifier": "for all states reached by updates, velocities of the mesh and directions, contacts between two separate sides", "why_tests_cant": "The potential is only used when searching along a line; a missing factor changes which steps are accepted, not the solution.", "anchors": ["softy/src/constraints/penalty_point_contact.rs: lagged_friction_potential, compute_friction_force, subtract_friction_force"]}
{"id": "C171", "title": "Friction never feeds energy into the motion", "statement": "The product of the assembled friction force with the velocities of the vertices is never positive.", "quantifier": "for all states reached by updates, valid friction parameters, velocities of the mesh, contacts between two separate sides", "why_tests_cant": "Power is the sum over all contacts and all vertices that share them; tests watch single blocks sliding for a short time.", "anchors": ["softy/src/constraints/penalty_point_contact.rs: compute_friction_force, subtract_friction_force", "softy/src/friction.rs: profile"]}
{"id": "C172", "title": "The lagged friction Jacobian is symmetric without negative directions", "statement": "The scalar entries of the lagged friction Jacobian form a symmetric matrix; with equal static and dynamic coefficients its quadratic form is never negative.", "quantifier": "for all states reached by updates, velocities, numbers of vertices that may move, valid friction parameters", "why_tests_cant": "The matrix is assembled from a product of five sparse matrices; symmetric solvers silently use one half of it.", "anchors": ["softy/src/constraints/penalty_point_contact.rs: friction_jacobian_indexed_value_iter"]}
{"id": "C173", "title": "The friction Jacobian keeps its entries at the same places", "statement": "At all later states, velocities, friction coefficients and time steps the entries of the friction Jacobian are at the same rows and columns in the same order as at first.", "quantifier": "for all states reached by updates, lagged, full and incomplete Jacobians, numbers of vertices that may move", "why_tests_cant": "The solver asks for rows and columns once and for values in every iteration; a moved entry shows only when contacts change in the middle of a step.", "anchors": ["softy/src/constraints/penalty_point_contact.rs: friction_jacobian_indexed_value_iter, jac_gradient_triplets, contact_constraint_jac_product_map", "softy/src/nl_fem/problem.rs: jacobian_indices, jacobian_values"]}
{"id": "C174", "title": "Derivatives of the contact Jacobian are stored at their own places", "statement": "The blocks of the derivative of products with the transposed contact Jacobian are stored at the rows and columns they belong to.", "quantifier": "for all states reached by updates and numbers of vertices that may move", "why_tests_cant": "Values are computed in a different call than the places they are stored at; scenes without fixed vertices agree.", "anchors": ["softy/src/constraints/penalty_point_contact.rs: build_contact_jacobian_gradient_product, precompute_contact_jacobian, friction_jacobian_indexed_value_iter", "softy/src/nl_fem/problem.rs: construct_friction_jacobian"]}
{"id": "C175", "title": "Static problems ask for vanishing forces", "statement": "With time step zero and backward Euler the unknowns are displacements, the objective is the energy of the displaced mesh and the residual is the gradient of that energy in the positions.", "quantifier": "for all meshes, materials, volume zones and contacts without friction as in the residual theorem, displacements and directions", "why_tests_cant": "Static scenes take a different path through the time step; with a wrong step the equilibrium found is still plausible.", "anchors": ["softy/src/fem/nl/problem.rs: is_static, time_step, compute_objective, compute_vertex_residual_impl, update_state"]}
{"id": "C176", "title": "Friction only takes its impulse from the residual", "statement": "The residual of a problem with frictional contacts is that without friction less the sum of all friction forces times the step from velocities to positions; contacts without friction parameters add nothing; the symmetric residual takes contacts and bases of the previous step.", "quantifier": "for all problems, friction parameters, numbers of contacts, states reached by updates, coordinates", "why_tests_cant": "Forces of several contacts are accumulated in place with several sign changes and factors; a missing factor gives a plausible but different friction coefficient.", "anchors": ["softy/src/fem/nl/problem.rs: subtract_friction_forces, compute_vertex_residual_impl", "softy/src/constraints/penalty_point_contact.rs: subtract_friction_force"]}
{"id": "C177", "title": "Sparsity of the Jacobian with friction is fixed", "statement": "Updates of a problem with frictional contacts do not fail; number and places of the Jacobian entries are the same before and after every update although they are computed with another factor than the values; the entries of friction follow those without friction, all places lie within the mesh and every place of the friction Jacobian is present.", "quantifier": "for all problems with frictional contacts, states reached by updates, velocities, with and without rebuilding", "why_tests_cant": "The linear solver reuses the pattern of the first call; a value written to a shifted place depends on the sizes of all earlier parts.", "anchors": ["softy/src/fem/nl/problem.rs: jacobian_nnz, compute_jacobian_indices, jacobian_values, update_state"]}
{"id": "C178", "title": "Friction entries of the Jacobian differentiate the friction part of the residual", "statement": "The entries that friction adds to the Jacobian of the problem are the derivative, along every change of the unknown velocities, of what friction adds to the residual, for lagged contacts and for contacts with the full Jacobian without viscosity and fixed vertices.", "quantifier": "for all problems with frictional contacts at smooth states, all directions and coordinates, every number of contacts", "why_tests_cant": "Needs positions, velocities, bases and normal forces to move together with the right factors of the time integrator; finite differences in tests use one mesh and one scheme.", "anchors": ["softy/src/fem/nl/problem.rs: jacobian_values, compute_vertex_residual_impl", "softy/src/constraints/penalty_point_contact.rs: friction_jacobian_indexed_value_iter"]}
{"id": "C179", "title": "The Jacobian differentiates the residual row by row, contacts included", "statement": "Row k of the assembled Jacobian, with volumes and contacts between different vertices, is the derivative of coordinate k of the residual along every change of the velocities, and the residual exists at all nearby velocities.", "quantifier": "for all meshes, materials, zones, contacts, integrators, smooth states, directions and coordinates", "why_tests_cant": "Symmetric test directions only see the symmetric part of a matrix; entries stored in the wrong one of two mirrored places cancel in energy tests.", "anchors": ["softy/src/fem/nl/problem.rs: jacobian_values, compute_jacobian_indices, residual"]}
{"id": "C180", "title": "Keyframes move exactly the animated vertices", "statement": "Storing a keyframe and reading it back gives the stored positions to the vertices marked as animated and leaves the others alone; for frame 0, or without an integer attribute, all vertices move; one position is stored for each moving vertex.", "quantifier": "for all attributes of any length and integer type, frames, positions", "why_tests_cant": "The two directions are separate iterator chains over three attribute types; a mismatch shifts all later vertices, and only for meshes where marked and unmarked vertices alternate.", "anchors": ["softy/src/scene.rs: filter_animated, update_positions_with_animated"]}
{"id": "C181", "title": "Adding a keyframe updates one frame", "statement": "Adding a keyframe stores it for its frame whether or not that frame had one, changes no other frame, keeps the frames strictly increasing, and panics exactly when the number of positions is wrong.", "quantifier": "for all animations in order, frames, positions, and every correct binary search", "why_tests_cant": "Five branches depend on the order of insertion; out of order insertion into long animations is rarely exercised.", "anchors": ["softy/src/scene.rs: add_keyframe"]}
{"id": "C182", "title": "The order in which keyframes are added does not matter", "statement": "Setting all keyframes at once gives the same scene as adding them one at a time in any order; a keyframe for frame 0 replaces the initial configuration. Lists of frames are accepted exactly when they have one list of positions of the right size for each frame and do not decrease.", "quantifier": "for all increasing frames, positions, permutations, and every correct binary search", "why_tests_cant": "There are as many orders as permutations.", "anchors": ["softy/src/scene.rs: set_keyframes, add_keyframe"]}
{"id": "C183", "title": "Keyframes are played back on time", "statement": "When no keyframe is earlier than frame 2, the simulation loop gives the solver, before the step of each keyed frame, the positions of the latest keyframe for animated vertices and the initial positions for all others, and nothing at other steps; failures and interruptions stop it.", "quantifier": "for all solvers, callbacks, numbers of steps, increasing frames from 2 on, positions, attributes", "why_tests_cant": "The positions depend on all earlier keyframes and on an index that runs along; off by one errors move an animation by a frame, which looks right.", "anchors": ["softy/src/scene.rs: run_with"]}
{"id": "C184", "title": "Keyframes for frame 1 and after repeated frames are late", "statement": "Every keyframe should be in force when the step of its frame is computed. Keyframes for all frames from 1 on instead all arrive one step late, as do keyframes after a repeated frame, which is accepted.", "quantifier": "for all solvers, numbers of keyframes and steps", "why_tests_cant": "The loop runs and the animation looks the same up to a delay of one frame.", "anchors": ["softy/src/scene.rs: run_with, set_keyframes"]}
{"id": "C185", "title": "Scene files are read back; truncated ones are reported", "statement": "A scene saved in the mixed format is loaded unchanged if both embedded formats can be read back. A file that ends right after the configuration should be reported as an error; the loader instead panics, and exactly then.", "quantifier": "for all configurations, scenes, byte strings, and readers of the two formats", "why_tests_cant": "Truncation exactly at the end of the first part is one of very many lengths.", "anchors": ["softy/src/scene.rs: save_as_sfrb, load_from_sfrb, read_as_ron"]}
{"id": "C186", "title": "Which contacts a configuration keeps", "statement": "A configuration with a time step keeps all added contacts in order; one without keeps exactly those without friction parameters, so that a contact with friction vanishes with its contact part.", "quantifier": "for all lists of contacts", "why_tests_cant": "Dropped contacts are not reported.", "anchors": ["softy/src/scene.rs: SceneConfig::add_frictional_contact"]}
{"id": "C187", "title": "The approximate diagonal is that of the Jacobian with contacts", "statement": "Without friction and enclosed volumes, the diagonal from which the approximate Jacobi preconditioner is made is the diagonal of the assembled Jacobian with contacts, and the preconditioner scales each entry that is not tiny to one.", "quantifier": "for all meshes, materials, integrators, contacts between different vertices, velocities and coordinates", "why_tests_cant": "A wrong preconditioner only costs iterations; the diagonal is computed by separate loops over second derivatives and over a sparse gradient, with signs and factors of their own.", "anchors": ["softy/src/fem/nl/problem.rs: compute_physical_preconditioner, diagonal_preconditioner"]}
{"id": "C188", "title": "The approximate diagonal includes every constraint", "statement": "The approximate diagonal should be that of the Jacobian for problems with enclosed volumes too. The code leaves volumes out: for an inflated tetrahedron the approximate diagonal is zero where the Jacobian has positive entries.", "quantifier": "there is a problem", "why_tests_cant": "Preconditioning with an incomplete diagonal still converges.", "anchors": ["softy/src/fem/nl/problem.rs: compute_physical_preconditioner"]}
{"id": "C189", "title": "Friction in the approximate diagonal comes from the friction Jacobian", "statement": "Without viscosity, frictional contacts add to the approximate diagonal the square of the velocity-to-position factor times the diagonal of the friction Jacobian with contact points, normal forces and bases held as they are; the loop over contact points does not fail.", "quantifier": "for all meshes, integrators, contacts between different vertices, states reached by updates, velocities, friction parameters without viscosity and coordinates", "why_tests_cant": "The loop rebuilds the friction blocks from the sparse contact Jacobian instead of using the assembled friction Jacobian, and assumes that its rows are dense.", "anchors": ["softy/src/fem/nl/problem.rs: compute_physical_preconditioner", "softy/src/constraints/penalty_point_contact.rs: friction_jacobian_indexed_value_iter"]}
{"id": "C190", "title": "Friction in the approximate diagonal is scaled like the Jacobian", "statement": "The friction part of the approximate diagonal should be that of the Jacobian for lagged friction. The code multiplies it by the velocity-to-position factor twice where the Jacobian has the factor once; for a point at rest on a surface and a step of a tenth the part is ten times too small.", "quantifier": "there is a problem", "why_tests_cant": "A badly scaled preconditioner only costs iterations.", "anchors": ["softy/src/fem/nl/problem.rs: compute_physical_preconditioner, jacobian_values"]}
{"id": "C191", "title": "The matrix of a Newton step is the derivative of the residual it solves for", "statement": "With elastic elements, volumes, contacts and friction together, row k of the assembled Jacobian is the derivative of coordinate k of the residual along every change of the unknown velocities, and the residual exists at all nearby velocities; contacts lie between different vertices, and friction is lagged or has the full Jacobian without viscosity and fixed vertices.", "quantifier": "for all meshes, materials, zones, contacts, friction parameters, integrators, smooth states, directions and coordinates", "why_tests_cant": "The Jacobian is summed from seven sources with different factors of the time step, mirrored or not; finite differences in tests check one mesh with one integrator.", "anchors": ["softy/src/fem/nl/problem.rs: jacobian_values, compute_jacobian_indices, residual", "softy/src/fem/nl/newton.rs: solve_impl"]}
{"id": "C192", "title": "Products without assembly are products with the assembled Jacobian", "statement": "After the cached values are invalidated at a state, each product of a sequence asked for by a linear solver, dual parts of the constraints plus the cached matrix of the rest, is the Jacobian of that state with all constraints and friction, as it would have been assembled, times the direction; whatever values the cache held before.", "quantifier": "for all meshes, materials, zones, contacts, friction parameters, integrators, smooth states, previous caches and sequences of directions", "why_tests_cant": "Two different code paths, dual numbers and a cached sparse matrix on one side and seven sources of triplets on the other, must agree on every factor; tests compare them on a few meshes and start from an empty cache.", "anchors": ["softy/src/fem/nl/problem.rs: jacobian_product_constraint_ad, update_state_ad, invalidate_cached_jacobian_product_values, compute_jacobian_indices"]}
{"id": "C193", "title": "The slope used with an iterative solver is the derivative of the merit", "statement": "With an iterative linear solver and any diagonal preconditioner, the number that decides whether a search direction is reversed, computed from a product without assembly and the rescaled residual, is the derivative of the merit, half the squared norm of the rescaled residual, along the direction.", "quantifier": "for all meshes, materials, zones, contacts, friction parameters, integrators, smooth states, preconditioners, caches and directions", "why_tests_cant": "A missing or doubled factor of the preconditioner changes only which directions are reversed and how often a step is shortened; the solver still converges in tests.", "anchors": ["softy/src/fem/nl/newton.rs: merit, merit_jac_prod, rescale_vector", "softy/src/fem/nl/problem.rs: jacobian_product"]}
{"id": "C194", "title": "The slope used with a direct solver is the derivative of the merit", "statement": "With a direct linear solver the slope in the Armijo condition is the derivative of the merit along the search direction, with and without a diagonal preconditioner, so an exact Newton step to a solution is accepted.", "quantifier": "for all meshes, materials, zones, contacts, friction parameters, integrators, smooth states, preconditioners and directions", "why_tests_cant": "Tests with a direct solver use no preconditioner; a wrong slope only shows as shorter steps until the coefficient times the preconditioner exceeds one half.", "anchors": ["softy/src/fem/nl/newton.rs: merit_jac_prod, rescale_jacobian_values, test_alpha"]}
{"id": "C195", "title": "Short steps along inexact Newton directions are accepted", "statement": "Where the residual is not zero, a direction that solves the linear system of the Jacobian up to a relative error eta below one, in the norm of the preconditioner, has a negative slope, and all steps along it that are short enough pass the test of the line search, with Armijo coefficients between zero and one; for both kinds of linear solvers.", "quantifier": "for all meshes, materials, zones, contacts, friction parameters, integrators, smooth states, preconditioners, directions and line search settings", "why_tests_cant": "States a limit; a finite number of step lengths cannot show that no state exists at which all short steps are rejected.", "anchors": ["softy/src/fem/nl/newton.rs: test_alpha, merit", "softy/src/fem/nl/problem.rs: jacobian_values, residual"]}
{"id": "C196", "title": "The line-search assistance reads the velocities of the state", "statement": "Whatever calls came before, the buffers that the line-search assistance for friction reads hold the given velocities, directions and residuals at vertices that may move and zeros at the others; the velocities are those of the state.", "quantifier": "for all numbers of vertices, histories of calls of both kinds, velocities, directions and residuals", "why_tests_cant": "Buffers persist between calls, so stale contents depend on the history; tests with prescribed motion do not look at the step the assistance proposes.", "anchors": ["softy/src/fem/nl/problem/assisted_line_search.rs: assist_line_search_for_friction, assist_line_search_for_contact", "softy/src/fem/nl/state.rs: to_vertex_velocity"]}
