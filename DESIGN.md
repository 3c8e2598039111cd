# Formal model of softy: design

Target: the Rust workspace in `/repo` (crates `softy`, `implicits`, `utils`), read as text at the pinned commit.

## Method

* Executable (or, over the reals, explicit) Gallina functions model one Rust function each. Every
  definition cites file and lines.
* Real-number code (`f32`/`f64`/dual numbers) is modelled over Coq's `R`: exact arithmetic, no rounding, no
  NaN. Infinities returned by the code are explicit constructors. This is stated again per file.
* Discrete code (iterators, index maps, control flow) is modelled over `list`, `nat`, `Z`, `option`.
* Panics are explicit error values. External calls (linear solver, contact subsystem, callbacks, file system)
  are universally quantified functions or oracles, never axioms.
* For each topic: `XModel.v` (definitions only), `XSpec.v` where the specification needs vocabulary of its own,
  `XProofs.v` (lemmas), `XProps.v` (theorems, examples, `Print Assumptions`).
* Where the code violates a property the theorem is called `..._refuted` and gives a witness; the
  part that does hold is proved next to it. A property is "partial" in the manifest when its statement is false
  of the code or proved only under an extra condition; the note says which.
* Derivatives are Coquelicot's `is_derive` along every line through the point, for every direction.
* Theorems are tested against seeded faults in the model definitions, see `seeded/LOG.jsonl`. A theorem that survives a fault that
  falsifies its claim is tightened or a new theorem is added (noted in the log).

## Trusted base

* The Coq 8.16.1 kernel (`coqc`), and that the definitions in the `*Model.v` files say what the cited Rust lines say. The second
  point is by reading; nothing is extracted or executed.
* Libraries: the Coq standard library and Coquelicot (which uses mathcomp's ssreflect); no axioms of other libraries.
* Axioms, all from the standard library, as listed by `Print Assumptions` after every theorem. Letters are used in the table below:
  * A: `ClassicalDedekindReals.sig_not_dec`
  * B: `ClassicalDedekindReals.sig_forall_dec`
  * C: `FunctionalExtensionality.functional_extensionality_dep`
  * D: `Classical_Prop.classic`

  A to C come with the real numbers, D with real analysis (limits, derivatives). "none" means closed under the global context.
* Section variables: none without a section. Oracles are fields of records (`env` of NewtonModel, `step_env` of StepModel, the operator
  of LinSolveModel) over which the theorems quantify.

### Meaning given to external crates

The sources of these crates are not in `/repo`. The models take them to mean:

* meshx: `Tetrahedron::shape_matrix` has rows x0 - x3, x1 - x3, x2 - x3; `Triangle::shape_matrix` rows x0 - x2, x1 - x2;
  `signed_volume` is a sixth of the determinant of the shape matrix; `area_normal` is (b - a) x (c - a); `centroid` is the average of the corners;
  `sort_vertices_by_key` is stable and applies the same permutation to all vertex attributes.
* tensr: matrices are row-major; `vec`/`mtx` stack rows; `skew v` is the matrix of v x _; `lower_triangular_vec` lists the lower triangle row by row;
  `sum_inner` adds all entries; `inverse` is the inverse for non-zero determinant and `None` otherwise; `pruned` merges entries of equal place in
  order with the given closure and drops merged zeros; `norm` is the Euclidean norm.
* num-traits / std floats: `mul_add` is multiply and add; `atan2`, `signum` and `%` as defined in AngleModel; `max`/`min` of numbers.
* autodiff (dual numbers): a dual number is a value with a derivative; the generic code is modelled once over an abstract set of operations (KernelModel).

### Oracles of the control-flow models

* NewtonModel (`env`): outer callback, sparsity pattern setup, merit values (finite or not), forcing ratio, iterative and direct linear solvers,
  directional derivative, contact and friction line-search assistance, convergence test, success of the file operations. All may depend on the
  iteration number, hence on hidden state.
* StepModel (`step_env`): the nonlinear solve (status and point), contact violation, maximum-step check, derivative check, contact tolerances.
* LinSolveModel: the operator callback (output buffer and whether to go on), the preconditioner.

## What is modelled

| file | code |
|------|------|
| KernelModel | `implicits/src/kernel.rs`: all kernels with first and second derivatives, dual-number versions, radial gradient and Hessian |
| FieldModel | `implicits/src/field.rs`: compute_potential_at, compute_local_potential_at, reverse; `field/background_field.rs`: all but Hessians and contact parts; `field/jacobian.rs`: query_jacobian_at, normalized_neighbor_weight_gradient, sample_query_jacobian_at, sample_jacobian_at, local_sample_jacobian_at; `field/samples.rs`: views |
| NeighborModel | `implicits/src/field/neighbor_cache.rs`; `field/query.rs`: construction, reset, updates, accessors, potential, splitting of ranges; `field.rs`, `field/samples.rs`, `field/spatial_tree.rs`: surfaces, update of samples and search tree; `field/jacobian.rs`: index lists and chunks. The search tree (rstar) and the hash are oracles; theorems assume that the tree answers exactly when built from the samples it is asked about |
| ProjectModel | `implicits/src/field/query.rs`: projection of points to a side of a level set (`project`, `project_par` the same over parallel iterators). The potential and gradient are the ones of FieldModel over cached neighbourhoods; NaN does not occur |
| SurfJacModel | `implicits/src/field/jacobian.rs`: `vertex_jacobian_at`, `face_jacobian_at` and the rows, triplets and blocks of the surface Jacobian; `implicits/src/field.rs`: gradients of unit normals of faces and vertices. `Triangle::area_normal_gradient` is external and taken to be the cross product matrix of the opposite edge in rows. `surface_jacobian_par_chunks`, which is `unimplemented!` for vertex samples, is not modelled |
| SurfBuildModel | `implicits/src/field/builder.rs`: the builder, its setters, attributes, dual topology, base radius, bases, local and global MLS surfaces; `implicits/src/lib.rs`: `mls_from_trimesh`, `mls_from_pointcloud`. Meshes and attributes (`geo`, external) are lists; `build_generic` and HRBF surfaces are not modelled |
| ContactMapModel | `implicits/src/field/jacobian.rs`: `rodrigues_rotation`, `sample_contact_jacobian_at`, its product, `weight_nml_sum_inv`, `contact_jacobian_at`, contact products for vertices and faces, contact matrices and product values; `implicits/src/kernel.rs`: `NormalKernel::eval`; `implicits/src/field.rs`: `compute_local_vector_at`; `implicits/src/field/query.rs`: `compute_vector_field`. Parallel iterators are taken as the sequential ones; lazy evaluation is not modelled except where outputs truncate |
| ContactAsmModel | `softy/src/contact.rs`: `TripletContactJacobian::from_selection`, `from_selection_reindexed_full`; `softy/src/constraints/penalty_point_contact.rs`: `MappedDistanceGradient::new`, `from_triplets` and `update_values` of `MappedContactJacobian`, `MappedContactGradient` and `MappedSSBlockMatrix3`, `reset_distance_gradient`, `update_constraint_gradient`, `update_contact_jacobian`, `update_contact_gradient` and the matrices of `precompute_contact_jacobian` without the Hessian products. tensr's compression is an oracle that adds the blocks of equal places |
| BasisJacModel | `softy/src/constraints/point_contact.rs`: `contact_normals` (normalisation); `softy/src/constraints/penalty_point_contact.rs`: `contact_basis_matrix_jacobian_product`, `build_contact_basis_gradient_product_from_selection`. The blocks of second derivatives and the gradients of the implicit function are arguments; `iamax` of tensr is any function that finds a largest component |
| HessModel | `implicits/src/kernel.rs`: `hess`; `implicits/src/field/background_field.rs`: `background_weight_hessian`, `field_hessian`, `compute_query_hessian`; `implicits/src/field/hessian.rs`: `query_hessian_at` and its product iterators, `sample_query_hessian_product_indexed_blocks_iter`, `sample_query_hessian_component_at`; `implicits/src/field/jacobian.rs`: `normalized_neighbor_weight_vertex_gradients`. NaN of the weighted global kernel is zero |
| SurfHessModel | `implicits/src/field/hessian.rs`: the surface Hessian product (`face_hessian_at`, `sample_hessian_at`, `normal_hessian_at`, `face_unit_normals_symmetric_jacobian`, `compute_face_unit_normals_hessian_products`), its index iterators and buffers; `implicits/src/field/background_field.rs`: `hessian_blocks`, `hessian_block_indices`. `Triangle::area_normal_hessian_product` is external. Indices out of range are checked for a whole neighbourhood at once |
| ContactDerivModel | `implicits/src/field/hessian.rs`: the four iterators of derivatives of products with the contact Jacobian (`contact_jacobian_jacobian_at`, `contact_hessian_at`, `sample_contact_jacobian_gradient_product_at`, `query_contact_jacobian_gradient_product_at`, `rodrigues_rotation_jacobian_product_at`, `jacobian_gradient_phi`); `implicits/src/field/jacobian.rs`: `normalized_neighbor_weight_nml_gradient`, `normalized_neighbor_weight_nml_vertex_gradients`; `implicits/src/kernel.rs`: `NormalKernel::grad`. The order in which the hash set lists its members is an argument |
| FricAsmModel | `softy/src/constraints/penalty_point_contact.rs`: friction on the mesh (`precompute_contact_jacobian`, `update_sliding_basis`, `lagged_friction_potential`, `compute_friction_force`, `subtract_friction_force`, `contact_constraint_jac_product_map`, `friction_jacobian_indexed_value_iter` and the products it builds). Products of sparse matrices add the blocks of equal place, as tensr does; surfaces sampled at faces; timings left out |
| ContactHessModel | `softy/src/constraints/penalty_point_contact.rs`: `update_state`, `distance_potential`, the distance Jacobian of both sides and its renumbering, `reset_distance_gradient`, `update_constraint_gradient`, `subtract_constraint_force`, the distance potential Hessian of the object, the collider and between them, `constraint_hessian_indices_iter`, `constraint_hessian_indexed_values_iter`, `constraint_hessian_size`, `num_hessian_diagonal_nnz`. Neighbourhoods are those of the topology; the distance gradient is the matrix of ContactAsmModel |
| ProblemModel | `softy/src/fem/nl/problem.rs`: `update_state`, `energy`, `inertia`, `compute_objective`, `subtract_force`, `subtract_constraint_forces`, `add_momentum_diff`, `compute_vertex_residual_impl`, `residual`, `jacobian_nnz`, `compute_jacobian_indices`, `jacobian_values`, `jacobian_diagonal_impl`, `compute_incomplete_jacobi_preconditioner`, built on ElasticModel, ShellModel, MassModel, VolumeModel, TimeModel and ContactHessModel. Without friction, rigid bodies and projection of element Hessians; one stage of the time integrator |
| FricProblemModel | `softy/src/fem/nl/problem.rs`: the parts of `update_state`, `compute_vertex_residual_impl`, `subtract_friction_forces`, `residual`, `jacobian_nnz`, `compute_jacobian_indices`, `jacobian_values` that deal with friction, around ProblemModel. Left out: the stash of the sliding basis, timings, debug output. |
| SceneModel | `softy/src/scene.rs`: `filter_animated`, `update_positions_with_animated`, `SceneData::new` (first keyframe), `set_keyframes`, `add_keyframe`, `SceneConfig::add_frictional_contact`, `save_as_sfrb`, `load_from_sfrb`, `run_with`. Parameters: `binary_search_by_key`, the solver, the callback, RON and bincode. Left out: conversion of attributes, `build_mesh` beyond the positions, the pure RON and JSON files. |
| PrecondModel | `compute_physical_preconditioner` and `diagonal_preconditioner` (problem.rs:2125-2305, 2904-2916): a loop that adds to a slice is the list of its additions. |
| ProductModel | `jacobian_product_constraint_ad`, `update_state_ad`, the cache of `compute_jacobian_indices` and its invalidation (problem.rs:1554-1577, 2309-2458, 2928-2937): the dual part of a value is its derivative along the seeded direction; the constraints over dual numbers are taken to have the state of the others; values are read from the state, not from the velocities passed. |
| DescentModel | `merit`, `merit_jac_prod`, `rescale_vector` and `rescale_jacobian_values` (newton.rs:779-791, 939-1016, 1236-1258) when the merit is not the objective; the matrix of the direct solver is that of platforms other than macOS. |
| AssistModel | The buffers of LineSearchWorkspace filled by the line-search assistance (assisted_line_search.rs:33-146, state.rs:42-47); the constraint functions that read them are elsewhere. |
| ContactModel | `softy/src/constraints/penalty_point_contact.rs`: penalty, its derivatives, multipliers, maximum step, line-search assistance |
| FrictionModel | same file: sliding potentials, profiles, friction force and Jacobian |
| ContactJacModel | same file: `MappedContactJacobian` products; `softy/src/contact.rs`: contact frames, coordinate changes, basis matrices |
| SeqModel | remapping of cached values (`remap_values`), mask iterators |
| AssemblyModel | `newton.rs`: construction of the compressed Jacobian pattern and redistribution of values |
| McpModel | `softy/src/fem/nl/mcp.rs`: complementarity residual, Jacobian, product; diagonal scaling and preconditioner |
| ConvergeModel | `problem.rs`: the convergence test |
| LinSolveModel | `linsolve/cr.rs`, `linsolve/bicgstab.rs` |
| NewtonModel | `newton.rs`: `Newton::solve_with` without logging and timing |
| StepModel | `solver.rs`: `Solver::step` with the stage table |
| TimeModel | `time_integration.rs`, `state.rs` update functions, `problem.rs` residual scaling, for one degree of freedom |
| StateModel | `state.rs`, `problem.rs`: vertex types, order, history, prescribed vertices, masses |
| ElasticModel | `tet_nh.rs`, `tet_snh.rs`, `tetsolid_nh.rs` |
| MassModel | `inertia/*.rs`, `gravity.rs` |
| CombineModel | `energy_models/mod.rs` |
| VolumeModel | `volume_change_penalty.rs`, `volume.rs` |
| UtilModel | `utils/src/lib.rs`, `material.rs` |
| AngleModel | `objects/interior_edge.rs` |
| ShellModel | `tri_nh.rs`, `trishell_nh.rs`, parts of `objects/trishell.rs` |
| TopoModel | `objects/interior_edge.rs` (edge topology), `objects/trishell.rs` (construction of triangle and dihedral elements); the hash map is a list of entries read out in any order |
| BuildModel | `objects/tetsolid.rs` (construction of elements, mass and force attributes), `objects/material.rs` (model and parameters), `fem/nl/solver/builder.rs` (attributes, mesh sizes, contacts, force scales, `build_problem`), `fem/nl/state.rs` (types for sorting); without volume constraints, velocities and dual copies |


## What is not modelled

* Rounding, overflow, NaN and performance; parallel iteration (rayon) is taken to compute what the sequential loop computes.
* Mesh input and output, attribute handling beyond the attributes named in the models, logging, timing, the Houdini plugins (`hdk`), the C interfaces
  (`cimplicits`), the Python and command-line front ends.
* The eigenvalue projection of element Hessians (`projected_hessian`), incomplete factorisations and the direct solvers of external crates.
* Of the implicit surface: the Hermite radial basis variant (`hrbf`), parallel iterators, cancellation, and the marching of the field on meshes beyond the potentials.
* Per file, simplifications are stated in the comment of the definition or at the head of the file.

## Plan per property

| id | title | model and proof plan |
|----|-------|----------------------|
| C01 | Kernel derivatives are the derivatives of the kernel | KernelModel: f/df/ddf over R; proof with Coquelicot is_derive. |
| C02 | Local kernels have compact support and are normalised weights | Same model; interval and monotonicity lemmas (nra / field). |
| C03 | Local kernels join zero smoothly at the radius | Value and derivative at the radius; expected refutation for the approximate kernel's derivative. |
| C04 | Contact penalty is a non-negative barrier active exactly inside the tolerance | ContactModel; is_derive also at the switch (difference quotient argument). |
| C05 | Contact forces never pull | map over distances of -kappa*db; list induction. |
| C06 | Sliding friction potential and force agree | FrictionModel: sliding potentials and profiles; is_derive in the speed. |
| C07 | Friction opposes sliding and respects the Coulomb cone | Friction force per contact as a function on R^2; Cauchy bound by algebra. |
| C08 | Friction Jacobian is the derivative of the friction force | eta_jac vs derivative of eta; expected refutation for falloff width <> 1. |
| C09 | A recomputed maximum step is never violated by the velocities it was computed from | ContactModel: lists of normal velocities; algebra with max. |
| C10 | Contact-assisted line search only shortens the step and keeps separation | ContactModel: fold with min. |
| C11 | Friction-assisted line search is independent of the incoming scale | ContactModel: average; expected refutation for alpha <> 1. |
| C12 | Transposed contact Jacobian is the adjoint of the contact Jacobian | ContactJacModel: index maps as functions nat -> option; adjointness by sums; refutation when a vertex is on both sides. |
| C13 | Contact coordinates round-trip and preserve lengths | ContactJacModel: 3-vectors; ring identities. |
| C14 | Contact frames built from normals are orthonormal | iamax and Gram-Schmidt; sqrt reasoning. |
| C15 | Sparse and dense contact basis matrices represent the same map | Stencil lists vs dense; expected refutation. |
| C16 | Remapping cached values after the active set changes | SeqModel: the peekable merge as a recursive function; induction. |
| C17 | Masked filtering and distribution are inverse | SeqModel: induction. |
| C18 | Sparse Jacobian assembly equals the sum of triplets | AssemblyModel: stable insertion sort, adjacent compression, mapping; induction. |
| C19 | Zero complementarity residual is exactly the complementarity condition | McpModel: component-wise; case analysis over R. |
| C20 | Complementarity Jacobian matrix and Jacobian product agree | McpModel: triplet multiply vs product; expected refutation on active bounds. |
| C21 | Newton reports success only at a converged point of the original problem | NewtonModel: control flow with oracles for residual, merit, linear solver; invariant. |
| C22 | Newton terminates within its iteration budget | NewtonModel: fuel-free statement on the unrolled loop. |
| C23 | Accepted line-search steps give the documented sufficient decrease | NewtonModel: accepted step; expected refutation after direction reversal. |
| C24 | Adaptive friction smoothing is restored after every solve | NewtonModel: epsilon state; expected refutation on early exits. |
| C25 | Iterative linear-solver tolerance is restored after every solve | NewtonModel: tolerance state. |
| C26 | Initial-guess backtracking terminates with a scaled guess | NewtonModel: bounded recursion. |
| C27 | Diagonal scaling is invertible | McpModel: pointwise. |
| C28 | One simulation step performs a bounded number of solves | StepModel: the retry loop with contact oracles; measure on remaining contact iterations. |
| C29 | A step leaves the configured time step unchanged | StepModel: time_step state; refutation on error in a first stage. |
| C30 | A step never commits an unresolved contact state | StepModel: commit log; refutation for max-step violations. |
| C31 | Conjugate residual solver: success means the residual is small | LinSolveModel over an abstract real inner-product space of lists; invariant r = b - A x. |
| C32 | BiCGSTAB: success means the residual is small | LinSolveModel with the restart branch; expected refutation. |
| C33 | Time integrators reproduce quadratic motion exactly | TimeModel: scalar updates; field identities. |
| C34 | Force scaling matches the position update | TimeModel: coefficient tables. |
| C35 | Advancing shifts the state history by one step | StateModel: records of lists; induction over commits. |
| C36 | Prescribed vertices move consistently with their velocity | StateModel: fixed vertices. |
| C37 | Results come back in the user's vertex order | StateModel: sort by type with carried source index; permutation. |
| C38 | Lumped masses add up to the total mass | MassModel: sum over elements; list induction. |
| C39 | Momentum term is the gradient of the inertia energy | MassModel: quadratic energy; is_derive. |
| C40 | Gravity force is the negative gradient of gravity energy and sums to the weight | MassModel: linear energy. |
| C41 | Neo-Hookean gradient is the gradient of the Neo-Hookean energy | ElasticModel: 3x3 matrices over R; is_derive along lines. |
| C42 | Neo-Hookean Hessian and Hessian product are derivatives of the gradient | ElasticModel: directional derivative of gradient. |
| C43 | Stable Neo-Hookean gradient is the gradient of its energy | ElasticModel. |
| C44 | Stable Neo-Hookean Hessian product is the derivative of the gradient | ElasticModel. |
| C45 | Elastic forces conserve linear and angular momentum | ElasticModel + assembly over meshes; list induction. |
| C46 | Elastic energy is invariant under rigid motion and minimal-force at rest | ElasticModel: orthogonal matrices. |
| C47 | Young's modulus and Poisson ratio convert to the right Lame parameters | UtilModel: expected refutation (operator precedence). |
| C48 | Small-strain response is Hooke's law with the user's parameters | UtilModel + ElasticModel. |
| C49 | Volume penalty gradient and exact Hessian are derivatives | VolumeModel: sums over triangles, is_derive; index/value lists. |
| C50 | Rest volume of the volume constraint is the volume of the rest shape | VolumeModel: cell-vertex vs vertex indexing; expected refutation. |
| C51 | Dihedral angle tracking is continuous | AngleModel: truncated remainder over R (via Int_part) and branch analysis. |
| C52 | Element Hessian pattern: lower triangular, complete, and in lockstep with values | ElasticModel: lists of index pairs. |
| C53 | Power-of-two rounding | UtilModel: Z bit fields and their value as a dyadic. |
| C54 | Mesh Laplacian smoothing weights are an average of neighbours | UtilModel: expected refutation. |
| C55 | Mode computation returns a most frequent element | UtilModel. |
| C56 | Neighbourhood caches contain every sample in range | NeighborModel. |
| C57 | Convergence test accepts exactly when one enabled criterion holds | ConvergeModel. |
| C58 | Inertia Hessian diagonal never indexes out of range | AssemblyModel with explicit panic value; expected refutation. |
| C59 | A failing line search does not crash the simulation | NewtonModel with the file-system as an oracle; expected refutation. |
| C60 | Combined energies add up | CombineModel combinators. |
| C61 | Linear solver iterates never depend on stale state | LinSolveModel with workspace state. |
| C62 | Friction dissipates energy | FrictionModel: sum over contacts. |
| C63 | Radial kernel gradient and Hessian are spatial derivatives | KernelModel: gradient and Hessian of x -> f(|x - s|) as code writes them; directional is_derive; the sample itself separately. |
| C64 | Contact forces are the gradient of the contact energy | ContactModel: energy as sum of penalties; is_derive through the penalty at every distance including the switch. |
| C65 | Active bounds are identified exactly when the complementarity Jacobian is assembled | McpModel: the activity tests of the Jacobian against the min/max form of the residual; expected refutation for scaled residuals. |
| C66 | BiCGSTAB terminates on small systems | LinSolveModel: run the model on diag(1,2); expected refutation. |
| C67 | A linear solve started at the exact solution keeps it | LinSolveModel: first iteration with zero residual; expected refutation for BiCGSTAB. |
| C68 | Reported Newton step lengths are the ones taken | NewtonModel: log entries against x_prev + alpha p. |
| C69 | Adaptive smoothing decreases to the user's value in a known number of iterations | NewtonModel: closed form of the start value; schedule invariant by induction over the log. |
| C70 | Success is never reported for a step the line search rejected | NewtonModel + ConvergeModel: witness run with the step criterion. |
| C71 | Contact stiffness adaptation is consistent and never weakens a contact arbitrarily | StepModel: invariant of both stiffness lists over the contact loop. |
| C72 | A failing step leaves the simulation where it was | StepModel: commit log on errors; expected refutation for two stages. |
| C73 | The residual is the gradient of the merit objective | TimeModel: is_derive of the objective in the velocity. |
| C74 | Time integration never gains energy on linear oscillators | TimeModel: one mode, energy identity or positive-definite form per scheme. |
| C75 | The first step of a fresh problem is as accurate as the others | TimeModel: first step from the initial history; expected refutation. |
| C76 | Vertex types follow a fixed precedence | StateModel: marking passes as folds; case analysis. |
| C77 | The leading internal vertices are exactly the degrees of freedom | StateModel: sorted order and counts. |
| C78 | Inverse masses and lumped stiffnesses | StateModel: list induction. |
| C79 | Neo-Hookean energy is non-negative and zero exactly on rotations | ElasticModel: sign of I - 3 - 2 ln J + ... by ln x <= x - 1 and the AM-GM inequality on singular values (Lagrange identities). |
| C80 | Assembled elastic gradient with damping is the derivative of the assembled energy | ElasticModel: sum of element derivatives through scatter-add. |
| C81 | Assembled elastic Hessian is the derivative of the assembled gradient | ElasticModel: quadratic form of the triplets against the derivative of the gradient. |
| C82 | Elastic damping dissipates | ElasticModel: power of damping forces; expected refutation on compressed elements. |
| C83 | Matrix-free inertia product agrees with the inertia Hessian | MassModel: product as fold of updates; expected refutation for shells. |
| C84 | Rigid shell inertia and gravity are consistent | MassModel: rigid energies, is_derive. |
| C85 | Approximate volume Hessian omits exactly the rank-one term | VolumeModel: difference of the two Hessian lists as an outer product. |
| C86 | Pressure forces balance | VolumeModel: translation and rotation of the signed volume of a closed surface. |
| C87 | Volume penalty is minimal exactly at the pressurised rest volume | VolumeModel: square completion. |
| C88 | Bending angle and its gradient agree with geometry | AngleModel: atan2 of normals; is_derive of atan2 along lines. |
| C89 | Bending angle Hessian is the derivative of its gradient | AngleModel: derivative of the gradient, block by block. |
| C90 | Reference angle is the rest angle | AngleModel: reference angle from per-face positions; expected refutation for unoriented faces. |
| C91 | Kernels do not depend on the units of length | KernelModel: scaling identity for radius, argument and tolerances; added after a seeded fault survived. |
| C92 | Membrane gradient of a shell triangle is the derivative of its energy | ShellModel: is_derive of ln det of the metric. |
| C93 | Membrane Hessian of a shell triangle is the derivative of its gradient | ShellModel: derivative of the gradient, tangential and normal parts. |
| C94 | Membrane energy vanishes exactly for unstretched triangles | ShellModel: as C79 for 2x3 matrices. |
| C95 | Gradient of collapsed triangles | ShellModel: expected refutation. |
| C96 | Bending gradient is the derivative of the bending energy | ShellModel + AngleProofs: chain rule through the tracked angle. |
| C97 | Shell gradient is the derivative of the shell energy | ShellModel: sum over triangles and edges through scatter-add. |
| C98 | Shell Hessian is the derivative of the shell gradient | ShellModel: quadratic form of the triplets. |
| C99 | Shell Hessian pattern is lower triangular and of the announced size | ShellModel: index lists. |
| C100 | Shell Hessian diagonal matches the matrix | ShellModel: diagonal of the form against the second loop. |
| C101 | Shell forces conserve momentum | ShellModel: sums of forces and torques over lists. |
| C102 | Shell damping removes energy and leaves rigid motions alone | ShellModel: power of damping; expected refutation for rigid rotations. |
| C103 | Shell energy is invariant under rigid motions | ShellModel: invariance of metrics and angles under rotations. |
| C104 | Updating recorded angles does not change the state | ShellModel: idempotence of the tracked angle. |
| C105 | Reference merit belongs to the current smoothing parameters | NewtonModel: invariant linking reference merit, parameters and point; added after a seeded fault survived. |
| C106 | Step outcome follows from the outcomes of its solves | StepModel: invariant over solves and commits; added after a seeded fault survived. |
| C107 | Interior edges are exactly the shared manifold edges | TopoModel: edge table as fold of registrations; entries by key; filter of adjacent triangles. |
| C108 | Dihedral elements stay aligned | TopoModel: retain as filter, invariant of the renumbering, congruence of edge functions. |
| C109 | Bending weight | TopoModel: heights as twice the area over the length. |
| C110 | Triangle elements are the movable triangles of the mesh | TopoModel: collect over the kept triangles; expected refutations for rigid triangles and reported indices. |
| C111 | A shell built from its reference configuration is at rest | TopoModel + ShellProofs + AngleRefProofs: rest isometry and reference angles of oriented meshes. |
| C112 | Tetrahedral elements are the movable tetrahedra of their model | BuildModel: collect over the kept tetrahedra; expected refutation for the reported indices. |
| C113 | A built solid is at rest and obeys Hooke's law | BuildModel + ElasticProofs: rest state and linearisation of both models; expected refutation with attributes. |
| C114 | Mass and force attributes of solids cover all corners | BuildModel: sums through scatter-add; expected refutations at the fourth corner. |
| C115 | Material ids are normalised | BuildModel: case analysis of attribute types; expected refutation for unsigned ids. |
| C116 | Fixed flags are normalised | BuildModel: case analysis of attribute types; expected refutation for wide flags. |
| C117 | Mesh sizes of vertices | BuildModel: invariant of a fold of minima with infinity. |
| C118 | Force scales | BuildModel: case analysis over minima and maxima. |
| C119 | Free vertices have mass | BuildModel + StateProofs: types of sorted vertices against kept elements; expected refutation for shell tetrahedra. |
| C120 | Contacts are set up as asked | BuildModel: collect over requests; expected refutation for static simulations. |
| C121 | Building a problem never panics and its errors are justified | BuildModel: outcome of each stage; expected refutations for panics. |
| C122 | The built problem is the given mesh at rest | BuildModel: renaming of vertices commutes with reference positions; rest states of C111 and C113. |
| C123 | The potential is a weighted average | FieldModel: positivity of kernels inside their support, bounds of a quotient of sums. |
| C124 | The query Jacobian is the derivative of the potential | FieldModel + KernelProofs: derivative of a quotient along a line, nearest sample locally constant; expected refutations where the code drops terms. |
| C125 | The sample Jacobian is the derivative of the potential | FieldModel: the same derivative along moving samples. |
| C126 | The potential moves with the surface and changes sign when normals are reversed | FieldModel: invariance of dot products; expected refutation for samples with values. |
| C127 | Cache changes are reported | NeighborModel: the flag by cases; pigeonhole for collisions of a bounded hash. |
| C128 | Cached neighbourhoods give the full potential | NeighborModel: samples outside the radius have weight zero; the nearest sample is in the cache; triangle inequality for moves. |
| C129 | Sparsity patterns of the implicit Jacobians are exact | NeighborModel: lengths and members of the lists by induction. |
| C130 | Parallel chunks visit every row once | NeighborModel: concatenation of chunks by induction. |
| C131 | Projection onto a side of a level set lands where it says | ProjectModel: invariants of both loops; paths as an inductive relation. |
| C132 | Projection is exact for planar surfaces | ProjectModel + FieldProofs: the potential of a planar surface is affine, so the first step lands. |
| C133 | Projection reports failure only for points that are not projected | ProjectModel: expected refutations at the last iteration, for input backgrounds and for empty neighbourhoods. |
| C134 | Updates of a surface, its radius and its maximal step change what they name and nothing else | NeighborModel: zip of lists by induction, kernels by cases; expected refutation for a tree that is not rebuilt. |
| C135 | The surface Jacobian is the derivative in the vertices of the surface | SurfJacModel: derivative of the potential through moving samples (FieldDerivProofs), area normals as bilinear functions of corners, exchange of sums over vertices and triangles; expected refutation for point clouds. |
| C136 | Surfaces are built consistent and as asked | SurfBuildModel: pushes onto lists of triangles by induction; samples from parallel vectors; case analysis of the builder. |
| C137 | The computed base radius is the smallest, and reaches the whole surface | SurfBuildModel: maxima by folding; the weighted identity of squared distances to the corners of a triangle; reset_exact. |
| C138 | The builder rejects what its documentation says it rejects | SurfBuildModel: expected refutations by the degenerate inputs named in the documentation. |
| C139 | Normals are turned to the gradient by the least rotation | ContactMapModel: polynomial identities for the matrix I + [u] + s [u][u] in terms of s and the length of u. |
| C140 | The contact Jacobian is an average of turned vectors | ContactMapModel: the sum of the weights; the triangle inequality over sums; gradient_equal for flat patches. |
| C141 | Contact matrices, their indices and their products agree | ContactMapModel: induction over rows as for the surface Jacobian; positions kept by filter. |
| C142 | The vector field interpolates the vectors of the samples | ContactMapModel: the same sums with another normalisation; expected refutations over two tilted samples. |
| C143 | Selecting contacts keeps the rows of the Jacobian | ContactAsmModel: the reverse map is inverse to the selection; induction over blocks. |
| C144 | Mapped sparse matrices store and refresh the sum of their blocks | ContactAsmModel: sorting and compression as in AssemblyModel, for blocks in any commutative monoid; sums over permutations. |
| C145 | Refreshed contact Jacobian and gradient are those of the moved surface | ContactAsmModel: places of the blocks are a function of connectivity and neighbourhoods; then C144. |
| C146 | Contact and distance gradients are adjoint to velocities and give the forces | ContactAsmModel: double sums exchanged block by block; C143 and C144. |
| C147 | Derivatives of the contact basis | BasisJacModel: derivative of a normalised vector twice, then a cross product; the axis is locally constant; a left and a right limit at a tie. |
| C148 | Assembled derivatives of contact bases | BasisJacModel: blocks act through one linear map per contact; sums over blocks; adjoint as in C146. |
| C149 | Hessian of the implicit function in the query point | HessModel: rate of the gradient along a moving query point, as a quotient of sums; bilinear forms of the matrices of the code; algebra. |
| C150 | Layout of the query Hessian | HessModel: filter and zip of rows; sums over the six entries of a block; a counterexample with an empty first neighbourhood. |
| C151 | Derivative of the gradient in the surface vertices | HessModel: rate of the gradient along moving samples; sums over corners; the background drops out when quiet; one triangle as counterexample. |
| C152 | Hessian of the implicit function in the surface vertices | SurfHessModel: second order jets of the potential along moving vertices; quadratic form of every family of blocks; the sum of the forms is the second coefficient. |
| C153 | Layout of the surface Hessian | SurfHessModel: indices of every family of blocks against its blocks, over all rows; expansion of blocks into entries. |
| C154 | Multipliers of the surface Hessian | SurfHessModel: one triangle above which the second of two query points lies, the first without neighbours. |
| C155 | Contact force assembled from an implicit surface | ContactHessModel: rows of the contact as lists; second order jets of the energy in the positions; power of the force by rows. |
| C156 | Contact Hessian assembled from an implicit surface | ContactHessModel: quadratic form of every family of blocks against the second coefficient of the jet; product of the distance gradient by columns. |
| C157 | Layout of the contact Hessian | ContactHessModel: indices of every family against its blocks; indices do not depend on positions. |
| C158 | Contact Hessian at shared vertices | ContactHessModel: a triangle and a collider point that is its first vertex; the energy is constant while the form of the matrix is 4. |
| C159 | Residual of the whole problem | ProblemModel: value, first and second derivative of every energy along a line of velocities; power of the residual by stages. |
| C160 | Jacobian of the whole problem | ProblemModel: quadratic form of lower triangles, mirrored part, volumes and contacts against the second derivative. |
| C161 | Layout of the Jacobian of the whole problem | ProblemModel: number of off-diagonal entries of every energy; indices as one list. |
| C162 | Diagonal of the Jacobian and the Jacobi preconditioner | ProblemModel: diagonals of every energy against the entries of the matrix. |
| C163 | Derivative of the rotation from a normal to the gradient | ContactDerivModel: product rule for the rotation as I + u + u u / (1 + n g). |
| C164 | Derivative of products with the contact Jacobian | ContactDerivModel: rate of one entry from rates of weights, gradient and normal; blocks of vertices summed against velocities; rows assembled. |
| C165 | Derivative of products with the transposed contact Jacobian | ContactDerivModel: the same rates for the transposed entries, multipliers by rank of the query point. |
| C166 | Layout of derivatives of the contact Jacobian | ContactDerivModel: all lookups succeed; first components of the blocks. |
| C167 | The friction Jacobian is the derivative of the friction force | FricAsmModel: Jacobian of friction against the derivative of the force at updated states, by rows of the contact matrices. |
| C168 | The lagged friction Jacobian is the derivative of the lagged friction force | FricAsmModel: product of basis, friction law derivative and contact matrices, state frozen. |
| C169 | The incomplete friction Jacobian follows velocities and normal forces | FricAsmModel: product with the change of the multipliers, merge of sorted rows. |
| C170 | Friction is the gradient of the lagged friction potential | FricAsmModel: potential summed over contacts, derivative of the profile integral, contact matrices as in C168. |
| C171 | Friction never feeds energy into the motion | FricAsmModel: pairing of force and velocity as a sum over contacts of the friction law. |
| C172 | The lagged friction Jacobian is symmetric without negative directions | FricAsmModel: quadratic form of the Jacobian as a sum over contacts, symmetric law, Cauchy-Schwarz in the tangent plane. |
| C173 | The friction Jacobian keeps its entries at the same places | FricAsmModel: places of every product depend on the places of the factors only, which updates keep. |
| C174 | Derivatives of the contact Jacobian are stored at their own places | FricAsmModel: places computed for all vertices against blocks computed for the free ones. |
| C175 | Static problems ask for vanishing forces | ProblemModel: C159 with time step zero, where positions move as much as the unknowns. |
| C176 | Friction only takes its impulse from the residual | FricProblemModel: residual by coordinates, friction force of every part. |
| C177 | Sparsity of the Jacobian with friction is fixed | FricProblemModel: every part exists (FricExistsProofs), its places by C173, lists appended to those of C161. |
| C178 | Friction entries of the Jacobian differentiate the friction part of the residual | FricProblemModel: positions and velocities along a line of unknowns, C167 and C168 for every part. |
| C179 | The Jacobian differentiates the residual row by row, contacts included | ProblemModel: derivative of the power of the residual against a unit vector, part by part; regular states are open; mixed second derivatives of the contact energy, polar form of the contact matrix. |
| C180 | Keyframes move exactly the animated vertices | SceneModel: both iterator chains position by position. |
| C181 | Adding a keyframe updates one frame | SceneModel: an animation as a map from frames, by cases of the comparison with the last frame. |
| C182 | The order in which keyframes are added does not matter | SceneModel: animations in order with the same map are equal. |
| C183 | Keyframes are played back on time | SceneModel: invariant of the loop, keyframes done are not later than the frame. |
| C184 | Keyframes for frame 1 and after repeated frames are late | SceneModel: the loop with keyframes 1, 2, ...; a solver that records. |
| C185 | Scene files are read back; truncated ones are reported | SceneModel: cases of the remaining bytes. |
| C186 | Which contacts a configuration keeps | SceneModel: induction on the contacts. |
| C187 | The approximate diagonal is that of the Jacobian with contacts | PrecondModel: the additions to the diagonal, block by block; a column of the gradient stores a vertex once. |
| C188 | The approximate diagonal includes every constraint | PrecondModel: an inflated tetrahedron without elements. |
| C189 | Friction in the approximate diagonal comes from the friction Jacobian | PrecondModel: rows of the contact Jacobian are dense; a row has at most one block for a vertex; quadratic form of the lagged Jacobian. |
| C190 | Friction in the approximate diagonal is scaled like the Jacobian | PrecondModel: a point at rest above two triangles, lagged friction. |
| C191 | The matrix of a Newton step is the derivative of the residual it solves for | FricProblemModel: C176, C178 and C179 together; regular states are open. |
| C192 | Products without assembly are products with the assembled Jacobian | ProductModel: the dual part is the derivative of the whole residual less that without constraints (C191, C179); the cached matrix has the entries of its triplets. |
| C193 | The slope used with an iterative solver is the derivative of the merit | DescentModel: chain rule from C191; the product by C192. |
| C194 | The slope used with a direct solver is the derivative of the merit | DescentModel: as C193 with the sparse matrix of the direct solver; a linear residual with one unknown refutes it with a preconditioner. |
| C195 | Short steps along inexact Newton directions are accepted | DescentModel: Cauchy-Schwarz bounds the slope; the difference quotient tends to it. |
| C196 | The line-search assistance reads the velocities of the state | AssistModel: each buffer stays empty or padded with zeros, by induction over the calls. |


## Status per property

| id | status | theorems (file, assumptions) | note |
|----|--------|------------------------------|------|
| C01 | proved | `kernel_df_ddf_are_derivatives` (Kernel, ABCD) | All five kernels, exact reals; autodiff kernels via dual numbers. |
| C02 | proved | `kernel_vanishes_beyond_radius` (Kernel, BC); `kernel_is_normalised_weight` (Kernel, BC); `interpolating_kernel_positive_inside` (Kernel, BC); `interpolating_kernel_bounded_refuted` (Kernel, BC) | Normalisation proved for cubic, smooth, approximate; the interpolating kernel has a pole by design (refuted boundedness). |
| C03 | proved | `kernel_joins_zero_smoothly` (Kernel, ABCD); `approximate_kernel_smooth_at_radius_refuted` (Kernel, ABCD) | Proved for cubic, interpolating, smooth; the approximate kernel has a kink for all parameters (refuted, documented by the code). |
| C04 | proved | `contact_penalty_is_barrier` (Contact, ABCD) |  |
| C05 | proved | `contact_multipliers_never_pull` (Contact, BC) |  |
| C06 | partial | `friction_potential_gradient_partial` (Friction, ABCD); `friction_potential_gradient_refuted` (Friction, ABCD) | Potential and force agree only up to the friction coefficient, which the potential omits (finding); proved with the factor restored. |
| C07 | partial | `friction_opposes_sliding` (Friction, ABC); `friction_is_coulomb_when_sliding` (Friction, ABC); `friction_coulomb_bound_with_viscosity_refuted` (Friction, ABC) | Everything proved; the Coulomb bound needs zero viscosity because the viscous term is not scaled by the normal force (finding). |
| C08 | partial | `friction_jacobian_is_derivative_partial` (Friction, ABCD); `friction_jacobian_at_rest_partial` (Friction, ABCD); `friction_jacobian_below_stribeck_refuted` (Friction, ABCD); `friction_jacobian_at_rest_refuted` (Friction, ABCD) | Complete case split: exactly when the Jacobian is the derivative and when it is not (falloff slope scaled wrongly; wrong value at rest with default parameters). |
| C09 | proved | `max_step_violation_means_some_point_too_fast` (Contact, BC); `recomputed_max_step_not_violated` (Contact, BC) |  |
| C10 | proved | `contact_assist_is_safe` (Contact, BC); `contact_assist_over_all_constraints_is_safe` (Contact, BC) |  |
| C11 | partial | `friction_assist_partial` (Contact, BC); `friction_assist_scale_independent_refuted` (Contact, BC) | Scale independence refuted for incoming scales different from one (finding). |
| C12 | proved | `contact_jacobian_transpose_is_adjoint` (ContactJac, BC); `contact_jacobian_shared_vertex_refuted` (ContactJac, BC) | Proved under the disjointness in the property; shown to fail for shared vertices. |
| C13 | proved | `contact_coordinates_round_trip` (ContactJac, BC) |  |
| C14 | proved | `contact_frame_from_normal` (ContactJac, ABC) |  |
| C15 | partial | `contact_basis_matrices_partial` (ContactJac, BC); `tangent_basis_sprs_refuted` (ContactJac, BC) | Sparse tangent basis refuted (finding); normal basis and dense blocks proved. |
| C16 | proved | `remap_keeps_surviving_values` (Seq, none) |  |
| C17 | proved | `mask_filter_keeps_unmasked` (Seq, none); `mask_distribute_inverts_filter` (Seq, none); `mask_filter_inverts_distribute` (Seq, none) |  |
| C18 | proved | `assembled_pattern_is_exact` (Assembly, none); `assembled_entry_is_sum_of_triplets` (Assembly, BC); `assembled_transpose_swaps` (Assembly, BC) |  |
| C19 | proved | `mcp_residual_zero_iff_complementary` (Mcp, BC) |  |
| C20 | partial | `mcp_jacobian_agree_inactive_partial` (Mcp, BC); `mcp_jacobian_active_row_is_identity` (Mcp, BC); `mcp_jacobian_agree_refuted` (Mcp, BC) | Agreement proved on inactive rows, refuted on active bounds (finding). |
| C21 | proved | `newton_success_is_converged` (Newton, ABCD); `newton_success_small_forces` (Newton, ABCD) |  |
| C22 | proved | `newton_iteration_budget` (Newton, ABCD); `newton_terminates` (Newton, ABCD) |  |
| C23 | partial | `newton_sufficient_decrease_partial` (Newton, ABCD); `newton_merit_never_increases_partial` (Newton, ABCD); `newton_inexact_decrease` (Newton, ABCD); `newton_sufficient_decrease_refuted` (Newton, ABCD) | Proved unless the direction was reversed; refuted after a reversal (finding). |
| C24 | partial | `newton_epsilon_restored_partial` (Newton, ABCD); `newton_epsilon_restored_refuted` (Newton, ABCD) | Proved on success and without adaptivity; refuted for other exits (finding). |
| C25 | proved | `newton_tolerance_restored` (Newton, ABCD); `newton_forcing_term_range` (Newton, ABCD) |  |
| C26 | proved | `initial_guess_is_scaled` (Newton, BC) |  |
| C27 | proved | `preconditioner_entries_positive_finite` (Mcp, ABC); `preconditioner_normalises_diagonal` (Mcp, ABC); `diagonal_scaling_round_trip` (Mcp, ABC); `jacobian_scaling_matches_vector_scaling` (Mcp, BC) |  |
| C28 | proved | `step_bounded_solves` (Step, ABC) |  |
| C29 | partial | `step_keeps_time_step_partial` (Step, ABC); `step_keeps_time_step_refuted` (Step, ABC) | Proved for successful steps and single-stage schemes; refuted when the first of two stages fails (finding). |
| C30 | partial | `step_commits_resolved_partial` (Step, ABC); `step_commits_max_step_refuted` (Step, ABC) | Contact violations are resolved or reported; a violated maximum step is committed silently (finding). |
| C31 | proved | `conjugate_residual_correct` (LinSolve, ABC) |  |
| C32 | partial | `bicgstab_success_partial` (LinSolve, ABC); `bicgstab_success_refuted` (LinSolve, ABC) | Holds without a restart of the first kind and for the corrected restart; refuted for the code (finding). |
| C33 | proved | `integrators_exact_on_quadratics` (Time, ABC); `trajectories_exist` (Time, ABC); `stage_solution_unique` (Time, ABC) |  |
| C34 | proved | `force_scale_matches_position_update` (Time, ABCD); `history_weights_sum_to_one` (Time, ABC); `residual_jacobian_scaling` (Time, ABCD) |  |
| C35 | proved | `advance_shifts_history` (State, none); `advance_updates_vertices` (State, none) |  |
| C36 | partial | `fixed_vertices_follow_partial` (State, BC); `fixed_vertices_stale_velocity_refuted` (State, BC) | Proved when a position is supplied; refuted for arrays shorter than the mesh (finding). |
| C37 | proved | `internal_order_sorts` (State, none); `positions_in_user_order` (State, none); `positions_at_user_index` (State, none); `state_indices_invert_order` (State, none); `supplied_source_index_loses_vertex_refuted` (State, none) | For meshes without a source index attribute; an unchecked attribute supplied by the user can lose vertices (finding). |
| C38 | proved | `lumped_masses_add_up` (State, BC) |  |
| C39 | proved | `inertia_gradient_is_derivative` (Mass, ABCD); `inertia_hessian_is_derivative` (Mass, ABCD); `inertia_diagonals_agree` (Mass, BC) |  |
| C40 | proved | `gravity_gradient_is_derivative` (Mass, ABCD); `rigid_gravity_is_derivative` (Mass, ABCD) |  |
| C41 | proved | `nh_gradient_is_derivative` (Elastic, ABCD); `nh_inverted_infinite` (Elastic, ABCD) |  |
| C42 | proved | `nh_hessian_is_derivative` (Elastic, ABCD) |  |
| C43 | proved | `snh_gradient_is_derivative` (Elastic, ABCD) |  |
| C44 | proved | `snh_hessian_is_derivative` (Elastic, ABCD) |  |
| C45 | proved | `mesh_momentum` (Elastic, ABCD); `damping_torque_refuted` (Elastic, ABCD) | Elastic forces of both models on every mesh; finding: the damping forces, which also sum to zero, do exert a net torque. |
| C46 | proved | `energy_rigid_invariant` (Elastic, ABCD); `rest_shape_force_free` (Elastic, ABCD) |  |
| C47 | partial | `bulk_shear_consistent` (Util, BC); `young_poisson_consistent_iff` (Util, BC); `young_poisson_refuted` (Util, BC) | Bulk and shear moduli are converted correctly; Young's modulus and Poisson's ratio only when the ratio is zero. |
| C48 | proved | `nh_linearises_to_hooke` (Elastic, ABCD); `snh_linearises_to_hooke` (Elastic, ABCD) | For the stable model when the re-parametrised lambda is not zero. |
| C49 | proved | `volume_gradient_is_derivative` (Volume, ABCD); `pressure_force_adds_gradient` (Volume, BC); `volume_hessian_is_derivative` (Volume, ABCD) |  |
| C50 | partial | `penalty_rest_volume_is_volume` (Volume, BC); `volume_constraint_is_excess_volume` (Volume, BC); `constraint_rest_volume_refuted` (Volume, BC) | Holds for the penalty used by the solver; false for the unused VolumeConstraint, which indexes positions wrongly. |
| C51 | proved | `projected_angle_equivalent` (Angle, ABC); `tracked_angle_continuous` (Angle, ABCD); `tracked_angle_follows` (Angle, ABCD) |  |
| C52 | proved | `hessian_pattern` (Elastic, B); `hessian_pairs_once` (Elastic, B); `hessian_entries_listed_once` (Elastic, none) |  |
| C53 | proved | `approx_power_of_two64_correct` (Util, BC); `approx_power_of_two32_correct` (Util, BC) | Subnormal numbers become zero and NaNs become infinities. |
| C54 | partial | `laplacian_row_sum` (Util, BC); `laplacian_row_sums_to_one_iff` (Util, BC); `laplacian_row_sum_refuted` (Util, BC); `laplacian_weight_one_refuted` (Util, BC) | False as stated: merging doubles the entries of shared edges; the exact sum is proved, and rows sum to one exactly where no edge is shared. |
| C55 | proved | `mode_most_frequent` (Util, none) |  |
| C56 | partial | `reset_caches_neighbors` (Neighbor, ABC); `caches_cover_moves` (Neighbor, ABC); `caches_go_stale_refuted` (Neighbor, ABC) | Caches computed by reset are exact and cover moves up to the maximal step; nothing invalidates them afterwards, so the second half is false. The search tree is assumed to answer exactly when built from the current samples. |
| C57 | proved | `converged_iff_enabled_criterion` (Converge, ABC); `converged_never_when_disabled` (Converge, ABC) |  |
| C58 | partial | `inertia_diagonal_panics_refuted` (Mass, BC); `inertia_diagonal_skips_fixed_partial` (Mass, BC) | False as stated: the guard compares a vertex index with a coordinate count and the shell has none; holds when no vertex index lies in the window between the two counts. |
| C59 | partial | `newton_line_search_no_panic_partial` (Newton, ABCD); `newton_line_search_panics_refuted` (Newton, ABCD) | Exact threshold proved; refuted for the default factor without a writable ./out (finding). |
| C60 | proved | `pair_adds_up` (Combine, BC); `absent_energy_contributes_nothing` (Combine, BC); `nested_energies_add_up` (Combine, BC); `pair_needs_room` (Combine, B) |  |
| C61 | proved | `conjugate_residual_ignores_stale_workspace` (LinSolve, ABC); `bicgstab_ignores_stale_workspace` (LinSolve, ABC) |  |
| C62 | proved | `friction_power_nonpositive` (ContactJac, ABC); `friction_power_shared_vertex_refuted` (ContactJac, ABC) | Same disjointness as C12; fails for shared vertices. |
| C63 | partial | `radial_gradient_is_derivative` (Kernel, ABCD); `radial_gradient_is_derivative_at_sample` (Kernel, ABCD); `radial_hessian_is_derivative` (Kernel, ABCD); `radial_hessian_at_sample_refuted` (Kernel, ABC) | Gradient everywhere, Hessian away from the sample; Hessian at the sample is refuted (finding). |
| C64 | proved | `contact_force_is_energy_gradient` (Contact, ABCD) |  |
| C65 | partial | `mcp_active_tests_exact_unscaled` (Mcp, BC); `mcp_active_tests_scaled_refuted` (Mcp, BC) | Exact for unscaled residuals; refuted for the scaled residual the Newton loop passes (finding). |
| C66 | partial | `bicgstab_two_iterations_refuted` (LinSolve, ABC) | Refuted (finding): rho starts at one. |
| C67 | partial | `conjugate_residual_exact_start` (LinSolve, ABC); `bicgstab_exact_start_refuted` (LinSolve, ABC) | Holds for conjugate residuals; refuted for BiCGSTAB (finding). |
| C68 | partial | `newton_reported_step_taken_partial` (Newton, ABCD); `newton_reported_step_taken_refuted` (Newton, ABCD) | Proved for accepted steps; off by the backtracking factor after a failed search (finding). |
| C69 | proved | `adaptive_epsilon_start` (Newton, ABCD); `adaptive_epsilon_schedule` (Newton, ABCD) |  |
| C70 | partial | `newton_success_without_progress_refuted` (Newton, ABCD); `newton_success_small_forces` (Newton, ABCD) | Refuted with the step-size criterion (finding); without it Success is decided by forces or accelerations. |
| C71 | proved | `step_stiffness_safe` (Step, ABC); `step_solves_start_from_committed` (Step, ABC) |  |
| C72 | partial | `step_error_commits_nothing_partial` (Step, ABC); `step_error_commits_nothing_refuted` (Step, ABC) | Proved for single-stage schemes; refuted for two-stage ones (finding). |
| C73 | proved | `objective_derivative_is_residual` (Time, ABCD) | One degree of freedom; frictionless potential. |
| C74 | proved | `integrators_stable_on_oscillators` (Time, ABC); `trapezoidal_rule_conserves_energy` (Time, ABC); `bdf2_stable_on_oscillators` (Time, ABC) | Scalar oscillator (one mode). |
| C75 | partial | `first_step_exact_partial` (Time, ABC); `first_step_trapezoidal_refuted` (Time, ABC); `first_step_bdf2_refuted` (Time, ABC) | Holds for SDIRK2; refuted for TR, TR-BDF2's first stage and BDF2 (finding). |
| C76 | proved | `vertex_types_by_precedence` (State, none) |  |
| C77 | proved | `degrees_of_freedom_are_leading` (State, none) |  |
| C78 | proved | `inverse_masses` (State, BC); `lumped_stiffness_is_maximum` (State, BC) |  |
| C79 | proved | `nh_energy_sign` (Elastic, ABCD) |  |
| C80 | proved | `mesh_gradient_is_derivative` (Elastic, ABCD) |  |
| C81 | proved | `mesh_hessian_is_derivative` (Elastic, ABCD); `mesh_diagonal_matches` (Elastic, BC) | Without eigenvalue projection of the element matrices. |
| C82 | partial | `damping_dissipates_partial` (Elastic, ABCD); `damping_injects_energy_refuted` (Elastic, ABCD) | Holds when the previous shape is the rest shape; false on compressed Neo-Hookean elements, whose stiffness is indefinite. |
| C83 | partial | `solid_inertia_product_is_hessian` (Mass, BC); `shell_inertia_product_refuted` (Mass, BC) | Holds for solids; false for shells, which assign instead of adding. |
| C84 | proved | `rigid_gradient_is_derivative` (Mass, ABCD); `rigid_hessian_is_derivative` (Mass, ABCD); `rigid_gravity_is_derivative` (Mass, ABCD); `rigid_gradient_needs_symmetry_refuted` (Mass, ABCD) |  |
| C85 | proved | `approximate_hessian_drops_rank_one` (Volume, ABCD) |  |
| C86 | proved | `pressure_forces_balance` (Volume, BC); `open_surface_force_refuted` (Volume, BC) |  |
| C87 | proved | `penalty_minimal_at_target` (Volume, ABCD) |  |
| C88 | proved | `edge_angle_is_angle_between_normals` (Angle, ABCD); `angle_gradient_is_derivative` (Angle, ABCD); `tracked_angle_gradient_is_derivative` (Angle, ABCD); `angle_gradient_balanced` (Angle, ABC) |  |
| C89 | proved | `angle_hessian_is_derivative` (Angle, ABCD) |  |
| C90 | partial | `reference_angle_is_rest_angle` (Angle, ABCD); `reference_angle_of_unoriented_faces_refuted` (Angle, ABCD) | Holds for consistently oriented faces; false for faces that traverse the edge in the same order, where a flat sheet gets a half turn. |
| C91 | proved | `kernel_units_consistent` (Kernel, ABCD) |  |
| C92 | proved | `tri_gradient_is_derivative` (Shell, ABCD) |  |
| C93 | proved | `tri_hessian_is_derivative` (Shell, ABCD) |  |
| C94 | proved | `tri_energy_sign` (Shell, ABCD); `tri_rest_force_free` (Shell, ABCD) |  |
| C95 | partial | `collapsed_triangle_gradient_refuted` (Shell, ABCD) | False: every triangle collapsed to a line has infinite energy and a gradient of zero. |
| C96 | proved | `bending_gradient_is_derivative` (Shell, ABCD); `bending_energy_sign` (Shell, ABCD) |  |
| C97 | proved | `shell_gradient_is_derivative` (Shell, ABCD) |  |
| C98 | proved | `shell_hessian_is_derivative` (Shell, ABCD) |  |
| C99 | proved | `shell_hessian_pattern` (Shell, ABCD); `shell_hessian_scale` (Shell, ABCD) |  |
| C100 | proved | `shell_diagonal_matches` (Shell, ABCD) |  |
| C101 | proved | `shell_conserves_momentum` (Shell, ABCD) |  |
| C102 | partial | `shell_damping_dissipates` (Shell, ABCD); `shell_damping_torque_refuted` (Shell, ABCD) | Dissipation is proved; false for rigid motions: damping resists a rigid rotation with a torque. |
| C103 | proved | `shell_energy_rigid_invariant` (Shell, ABCD) |  |
| C104 | proved | `update_angles_keeps_state` (Shell, ABCD) |  |
| C105 | proved | `newton_reference_merit_is_current` (Newton, ABCD) |  |
| C106 | proved | `step_outcome_follows_solves` (Step, ABC) |  |
| C107 | partial | `interior_edges_exact` (Topo, none); `nonmanifold_edges_captured_refuted` (Topo, none); `repeated_corner_pairs_refuted` (Topo, none) | Proved for triangles with three different corners; edges with three or more faces carry no bending although the documentation says they do, and a triangle with a repeated vertex is paired with itself. |
| C108 | proved | `dihedral_elements_aligned` (Topo, ABCD); `bending_stiffness_of_cells` (Topo, B) |  |
| C109 | proved | `bending_weight_heights` (Topo, ABC) |  |
| C110 | partial | `triangle_elements_exact` (Topo, ABC); `triangle_elements_failures` (Topo, ABC); `rigid_triangles_supported_refuted` (Topo, ABC); `degenerate_cells_reported_refuted` (Topo, ABC) | Proved except that triangles of rigid materials are selected and then rejected, and that errors report positions in the list of selected triangles, not cells. |
| C111 | proved | `built_shell_smooth` (Topo, ABCD); `built_shell_at_rest` (Topo, ABCD) |  |
| C112 | partial | `tet_elements_exact` (Build, BC); `tet_elements_failures` (Build, BC); `inverted_cells_reported_refuted` (Build, BC) | Proved except that errors report positions among the elements of the model, not cells. |
| C113 | partial | `built_solid_at_rest` (Build, ABCD); `built_solid_hooke` (Build, ABCD); `stable_attributes_hooke_refuted` (Build, ABCD) | Proved without Lame attributes; attributes are not converted for the stable model, so cells with attributes do not obey Hooke's law with the parameters given. The energy of the stable model at rest is not zero (a constant), only its forces are. |
| C114 | partial | `tet_mass_attribute_total` (Setup, BC); `tet_mass_fourth_corner_refuted` (Setup, BC); `tet_forces_fourth_corner_refuted` (Setup, ABCD) | Total mass proved; the fourth corner receives neither mass nor force. |
| C115 | partial | `material_ids_normalised` (Setup, none); `unsigned_material_ids_refuted` (Setup, ABCD) | Proved for signed and 64 bit types; with unsigned 8 and 32 bit ids no problem can be built. |
| C116 | partial | `fixed_flags_normalised` (Setup, none); `wide_fixed_flags_refuted` (Setup, none) | Proved for flags that fit in 8 bits; others become zero, so the vertex is free. |
| C117 | proved | `mesh_sizes_exact` (Setup, ABCD) |  |
| C118 | proved | `force_scales_extreme` (Setup, BC); `residual_tolerance_tightens` (Setup, BC) | Elastic and bending scales are the constant one in the code (stubs), and are modelled as such. |
| C119 | partial | `free_vertices_have_mass` (Setup, ABCD); `shell_tetrahedra_have_mass_refuted` (Setup, ABCD) | Proved unless a tetrahedron has the material of a shell; then its vertices are free and massless. |
| C120 | partial | `contacts_as_asked` (Setup, ABCD); `dynamic_contacts_recorded` (Setup, none); `static_contacts_recorded_refuted` (Setup, B) | Proved for dynamic simulations and for building; in static simulations contacts with friction are dropped. |
| C121 | partial | `build_problem_total` (Setup, ABCD); `no_materials_panic_refuted` (Setup, ABCD); `source_indices_panic_refuted` (Setup, ABCD); `unsigned_object_ids_panic_refuted` (Setup, ABCD) | Proved for well posed inputs; no materials, large source indices and unsigned object ids lead to panics. |
| C122 | proved | `sorted_mesh_is_given` (Setup, ABCD); `built_problem_at_rest` (Setup, ABCD); `reference_attributes_agree` (Setup, ABCD) | Stable solids must have a non-zero converted first Lame parameter. |
| C123 | proved | `potential_weighted_average` (Field, ABC); `potential_of_planes` (Field, ABC); `potential_outside` (Field, ABC) |  |
| C124 | partial | `query_jacobian_is_derivative` (Field, ABCD); `closest_hint_unused` (Field, ABC); `weighted_input_jacobian_refuted` (Field, ABCD); `weighted_interpolating_jacobian_refuted` (Field, ABCD); `empty_neighbourhood_jacobian_refuted` (Field, ABC) | Proved for unweighted backgrounds and for weighted ones that are zero or a distance with cubic, smooth and approximate kernels; false for weighted input backgrounds, weighted interpolating kernels and the full Jacobian of empty neighbourhoods. |
| C125 | partial | `sample_jacobian_is_derivative` (Field, ABCD) | Proved under the same conditions as C124 (the failing cases are those of C124); normals fixed. |
| C126 | partial | `potential_rigid_invariant` (Field, ABC); `potential_reversed` (Field, ABC); `reverse_sign_refuted` (Field, ABC) | Reversal proved for samples without values; values are not negated by the code, so otherwise the sign does not change. |
| C127 | partial | `change_flag_reports` (Neighbor, B); `change_flag_collision_refuted` (Neighbor, ABC) | Proved for a hash without collisions; every bounded hash has collisions that hide a change. |
| C128 | partial | `cached_potential_is_complete` (Neighbor, ABC); `potential_out_of_range_refuted` (Neighbor, ABC); `ties_depend_on_order_refuted` (Neighbor, ABC) | Proved where some sample is in range, with a unique nearest sample if the background is a weighted distance; false elsewhere. |
| C129 | partial | `reset_indices_valid` (Neighbor, ABC); `jacobian_indices_exact` (Neighbor, none); `neighborhood_vertices_exact_partial` (Neighbor, none); `neighborhood_vertices_refuted` (Neighbor, ABC) | Index lists proved; the reported vertices are exact for face samples only. |
| C130 | partial | `chunks_visit_rows` (Neighbor, none); `chunks_without_points_refuted` (Neighbor, none); `split_range_partitions` (Neighbor, none) | Proved for at least one query point; without query points the chunk size is zero, which panics. |
| C131 | proved | `projection_lands` (Project, ABC); `projection_keeps` (Project, ABC); `projection_path` (Project, ABC); `projection_gradient` (Project, ABCD); `projection_panics` (Project, ABC) | The potential of each point is that of its cached neighbourhood, as in the code. Exact reals. |
| C132 | proved | `projection_exact_on_planes` (Project, ABC) | Background weight off; exact reals. |
| C133 | partial | `projection_reports_success_refuted` (Project, ABCD); `projection_keeps_input_refuted` (Project, ABC); `projection_of_far_points_refuted` (Project, ABC) | Refuted: failure is reported if the last allowed iteration succeeds; with an input background points are moved although on the right side; far points are judged by the value zero in the buffer. |
| C134 | partial | `surface_update_exact` (Update, ABC); `update_without_rebuilding_refuted` (Update, ABC); `radius_update_exact` (Update, B); `step_update_exact` (Update, none); `global_updates_ignored` (Update, none); `global_query_exact` (Update, ABC); `neighborhood_vertices_of_samples` (Update, none) | Proved, except that a tree that is not rebuilt prunes by the boxes of the old positions and misses samples in range. |
| C135 | partial | `surface_jacobian_of_queries` (SurfJac, ABCD); `surface_jacobian_is_derivative` (SurfJac, ABCD); `surface_jacobian_matches_indices` (SurfJac, ABC); `update_puts_in_place` (SurfJac, ABC); `point_cloud_jacobian_refuted` (SurfJac, ABC) | Proved for triangle meshes in exact reals; refuted for point clouds, whose vertex samples have no lists of triangles: the Jacobian panics and an update erases the normals. |
| C136 | proved | `trimesh_surface_exact` (SurfBuild, ABC); `trimesh_outcome` (SurfBuild, ABC); `pointcloud_surface_exact` (SurfBuild, ABC); `dual_topology_exact` (SurfBuild, none) | Exact reals; meshes are positions, triangles and attributes with one entry per element. |
| C137 | proved | `base_radius_smallest` (SurfBuild, ABC); `surface_within_reach` (SurfBuild, ABC) | Exact reals. |
| C138 | partial | `empty_surface_builds_refuted` (SurfBuild, ABC); `zero_radius_builds_refuted` (SurfBuild, ABC); `faceless_mesh_panics_refuted` (SurfBuild, ABC); `documented_offsets_refuted` (SurfBuild, ABC); `face_velocities_lost_refuted` (SurfBuild, ABC); `isolated_vertices_refuted` (SurfBuild, ABC) | Refuted: empty and zero radius surfaces are built, a mesh without triangles panics, the attribute read is named offset, face velocities are lost by the first update, isolated vertices get zero normals. |
| C139 | partial | `rodrigues_is_least_turn` (ContactMap, BC); `rodrigues_of_any_gradient` (ContactMap, BC); `rodrigues_rotation_refuted` (ContactMap, ABC) | Proved for unit vectors that are not opposite; false for gradients of another length, which the code passes, and for opposite vectors. Exact reals. |
| C140 | partial | `contact_matrices_average` (ContactMap, ABC); `contact_map_bounded` (ContactMap, ABC); `contact_map_normals` (ContactMap, ABC); `contact_map_flat` (ContactMap, ABC); `contact_map_refuted` (ContactMap, ABC) | Weights proved always, the rest for unit gradients or flat patches; over curved samples the gradient is no unit vector, normals are not carried to it and translations are shortened. |
| C141 | partial | `contact_matrices_block_matrix` (ContactMap, ABC); `contact_matrices_written` (ContactMap, ABC); `contact_products_written` (ContactMap, ABC); `contact_product_rows_refuted` (ContactMap, ABC); `contact_product_zero_refuted` (ContactMap, ABC) | Matrices and indices proved; products are written one after the other, which shifts the rows after a point that sees nothing, and contain the gradient of the background even for zero multipliers. |
| C142 | partial | `vector_field_scaled` (ContactMap, ABC); `vector_field_flat` (ContactMap, ABC); `vector_field_pointwise` (ContactMap, ABC); `vector_field_refuted` (ContactMap, ABC) | The vector is that of the contact Jacobian times the mean agreement of the normals; exact over flat patches without weighted background, false otherwise. |
| C143 | proved | `selection_rows` (ContactAsm, ABC); `selection_loses_nothing` (ContactAsm, ABC); `full_selection_rows` (ContactAsm, ABC) | Query points and samples as in C141; the selection indexes the query points. |
| C144 | partial | `assembled_matrix` (ContactAsm, none); `refreshed_matrix` (ContactAsm, none); `stale_refresh_refuted` (ContactAsm, none) | Proved for blocks at the same places; with blocks at other places the refresh neither fails nor follows them. The compression of tensr is an oracle. |
| C145 | proved | `contact_jacobian_built` (ContactAsm, ABC); `contact_jacobian_refreshed` (ContactAsm, ABC); `contact_gradient_refreshed` (ContactAsm, ABC) | For states with the same neighbourhoods; the solver rebuilds when they change. |
| C146 | proved | `full_jacobian_is_relative_velocity` (ContactAsm, ABC); `contact_gradient_adjoint` (ContactAsm, ABC); `distance_gradient_is_force` (ContactAsm, BC); `distance_gradient_refreshed` (ContactAsm, BC) | Blocks of the distance Jacobian are arbitrary here; they are those of C126 to C136. |
| C147 | partial | `normal_derivative` (BasisJac, ABC); `basis_product_derivative` (BasisJac, ABC); `basis_jump_refuted` (BasisJac, ABCD) | Proved wherever one component of the gradient dominates; refuted at ties, where the tangent jumps. |
| C148 | proved | `basis_blocks_derivative` (BasisJac, ABC); `basis_gradient_adjoint` (BasisJac, ABC) | The blocks of second derivatives are arguments. Gradients at the contacts are not zero and have a dominant component. |
| C149 | proved | `query_hessian_is_derivative` (Hess, ABCD) | A weighted background needs a local kernel other than the interpolating one and, if it is an input, the value zero. |
| C150 | partial | `query_hessian_blocks_exact` (Hess, ABC); `query_hessian_entries_exact` (Hess, ABC); `query_hessian_scaled_exact` (Hess, ABC); `query_hessian_multipliers_refuted` (Hess, ABC) | Proved with one multiplier per query point that has neighbours; refuted for one per query point, as documented. |
| C151 | partial | `sample_query_hessian_is_derivative` (Hess, ABCD); `sample_query_hessian_exact` (Hess, ABC); `weighted_distance_mixed_hessian_refuted` (Hess, ABC) | Proved for backgrounds that do not contribute to the gradient; refuted for a weighted distance background. Vertex samples are not supported by the code. |
| C152 | proved | `surface_hessian_is_second_derivative` (SurfHess, ABCD); `surface_hessian_of_queries` (SurfHess, ABCD) | One multiplier per query point that has neighbours; see C154. |
| C153 | proved | `surface_hessian_layout` (SurfHess, ABC); `surface_hessian_of_vertices_unsupported` (SurfHess, ABC) |  |
| C154 | partial | `surface_hessian_multipliers_refuted` (SurfHess, ABCD) | Refuted: the multipliers are zipped with the query points that have neighbours. C152 is the positive statement. |
| C155 | proved | `contact_force_is_derivative` (ContactHess, ABCD) |  |
| C156 | proved | `contact_hessian_is_second_derivative` (ContactHess, ABCD) | Surface and collider share no vertex; see C158. |
| C157 | proved | `contact_hessian_layout` (ContactHess, ABC) |  |
| C158 | partial | `shared_vertex_hessian_refuted` (ContactHess, ABCD) | Refuted: a block between the two sides of one shared vertex is written once instead of with its transpose. C156 is the positive statement. |
| C159 | proved | `residual_is_objective_gradient` (Problem, ABCD) |  |
| C160 | proved | `jacobian_is_objective_hessian` (Problem, ABCD) | Volumes with the approximate Hessian and contacts that share vertices are excluded; see C158. |
| C161 | proved | `jacobian_layout` (Problem, ABCD) |  |
| C162 | proved | `jacobian_diagonal_matches` (Problem, ABCD); `jacobi_preconditioner_scales` (Problem, ABCD) |  |
| C163 | proved | `rotation_product_derivative` (ContactDeriv, ABC); `normal_kernel_derivative` (ContactDeriv, ABCD) |  |
| C164 | partial | `contact_product_derivative` (ContactDeriv, ABCD); `weighted_contact_product_refuted` (ContactDeriv, ABC) | Proved without weighted background; refuted with a weighted distance background. |
| C165 | proved | `contact_transposed_derivative` (ContactDeriv, ABCD) |  |
| C166 | proved | `contact_derivatives_layout` (ContactDeriv, ABC) |  |
| C167 | partial | `friction_jacobian_is_derivative` (FricAsm, ABCD); `viscous_friction_jacobian_refuted` (FricAsm, ABCD) | Proved without viscosity and with all vertices free; refuted with viscosity. |
| C168 | proved | `lagged_friction_jacobian_is_derivative` (FricAsm, ABCD) |  |
| C169 | partial | `incomplete_friction_jacobian_is_derivative` (FricAsm, ABCD); `viscous_friction_jacobian_refuted` (FricAsm, ABCD) | Proved without viscosity; refuted with viscosity. |
| C170 | partial | `lagged_friction_potential_gradient_partial` (FricEnergy, ABCD); `lagged_friction_potential_gradient_refuted` (FricEnergy, ABCD) | Holds for the potential times the coefficient of friction, with equal static and dynamic coefficients and no viscosity; refuted for the potential of the code, which leaves the coefficient out. |
| C171 | proved | `friction_force_dissipates` (FricEnergy, ABC) |  |
| C172 | proved | `lagged_friction_jacobian_is_symmetric` (FricEnergy, ABC) |  |
| C173 | proved | `friction_jacobian_layout` (FricLayout, ABC) |  |
| C174 | partial | `friction_derivative_places_partial` (FricLayout, ABC); `friction_derivative_places_refuted` (FricLayout, ABC) | Proved when all vertices may move; refuted with fixed vertices. |
| C175 | proved | `static_residual_is_energy_gradient` (ProblemStatic, ABCD) |  |
| C176 | proved | `friction_residual_splits` (FricProblem, ABCD) |  |
| C177 | proved | `friction_problem_layout` (FricProblem, ABCD) |  |
| C178 | proved | `friction_matrix_is_derivative` (FricProblem, ABCD) | Contacts with the incomplete Jacobian, viscosity (C167 refutes it) or fixed vertices (C174 refutes it) are left out. |
| C179 | proved | `jacobian_is_residual_derivative` (ProblemDeriv, ABCD) |  |
| C180 | proved | `keyframe_round_trip` (Scene, none) |  |
| C181 | proved | `add_keyframe_updates` (Scene, none) | the contract of binary_search_by_key is assumed |
| C182 | proved | `keyframes_in_any_order` (Scene, none); `frame_zero_replaces` (Scene, none); `keyframes_accepted` (Scene, none) | the contract of binary_search_by_key is assumed |
| C183 | proved | `keyframes_are_played_back` (Scene, none) |  |
| C184 | partial | `dense_keyframes_are_late` (Scene, none); `early_keyframes_refuted` (Scene, none) | refuted: the loop looks for the next keyframe only after a step and takes at most one per step |
| C185 | partial | `sfrb_round_trip` (Scene, none); `sfrb_panics` (Scene, none); `sfrb_reports_errors_refuted` (Scene, none) | refuted for files that end with the configuration: bytes[0] is indexed without a check |
| C186 | proved | `added_contacts` (Scene, none) |  |
| C187 | proved | `approximate_diagonal_matches` (Precond, ABCD); `preconditioner_choice` (Precond, ABCD) |  |
| C188 | partial | `approximate_diagonal_misses_volumes_refuted` (Precond, ABCD) | refuted: volume constraints are not among the terms |
| C189 | proved | `approximate_diagonal_with_friction` (PrecondFric, ABCD) |  |
| C190 | partial | `approximate_diagonal_friction_scale_refuted` (PrecondFric, ABCD) | refuted: the factor enters twice; the positive part is C189 |
| C191 | proved | `whole_jacobian_is_derivative` (FricDeriv, ABCD) |  |
| C192 | proved | `products_are_jacobian_products` (Product, ABCD) |  |
| C193 | proved | `iterative_slope_is_derivative` (Descent, ABCD) |  |
| C194 | partial | `direct_slope_is_derivative` (Descent, ABCD); `direct_slope_refuted` (Descent, ABCD) | Proved without a preconditioner; refuted with one: the product is rescaled twice, and with the default settings exact Newton steps can be rejected. |
| C195 | proved | `short_newton_steps_accepted` (Descent, ABCD) |  |
| C196 | partial | `assistance_reads` (Assist, B); `assistance_reads_contact` (Assist, B); `assistance_reads_state` (Assist, B); `assistance_reads_state_refuted` (Assist, BC) | Contents of the buffers proved for all histories; equal to the velocities of the state if fixed vertices stand still, refuted if one has a prescribed velocity. |


## Findings

Properties that fail for the code as written, each with a machine-checked witness.

* C90 `reference_angle_of_unoriented_faces_refuted`: For faces that traverse the edge in the same order the reference angle of a flat sheet is a half turn away from its angle.
* C196 `assistance_reads_state_refuted`: Assisted_line_search.rs:129-137: to_vertex_velocity copies only velocities of degrees of freedom into a buffer of zeros.  For the search direction that is right (the comment there says so), but the velocities of fixed vertices with prescribed motion are then read as zero: a vertex that rests on a carried obstacle and moves with it has zero relative velocity, and the assistance for friction reads the velocity of the obstacle instead.
* C147 `basis_jump_refuted`: The tangent of a contact is built from the axis after the largest component of the normal (`contact.rs:429-445`). Where two components are of equal size, as for a normal at 45 degrees, it jumps, so the friction force has no derivative there although `contact_basis_matrix_jacobian_product` (`penalty_point_contact.rs:2552-2661`) returns one.
* C112 `inverted_cells_reported_refuted`: Inverted cells are reported by their position among the elements of their model, not by their index in the mesh.
* C113 `stable_attributes_hooke_refuted`: Lame parameters given as attributes of cells are passed on as they are, without the conversion applied to those of a material; an element of the stable model then does not answer by Hooke's law with the parameters given.
* C144 `stale_refresh_refuted`: `update_values` and `update_constraint_gradient` (`penalty_point_contact.rs:283-301, 455-474, 530-548, 1292-1327`) pair new blocks with the places of old ones by position, without comparing indices or lengths. If neighbourhoods change without a rebuild, which the hashed change flag of C127 allows, forces go to other vertices silently.
* C164 `weighted_contact_product_refuted`: With a weighted background the blocks of the contact Jacobian contain the derivative of the background weight although the weight sum they are normalised with does not (`normalized_neighbor_weight_nml_vertex_gradients`, and `normalized_neighbor_weight_nml_gradient`, which adds it once per sample): a triangle moving towards a query point leaves the contact Jacobian unchanged, but the blocks give a rate of 3/2.
* C158 `shared_vertex_hessian_refuted`: `constraint_hessian_indexed_values_iter` (`penalty_point_contact.rs:3688-3774`) mirrors a block unless its row and column are equal. A block between collider and surface of the same vertex is off-diagonal in meaning but falls on the diagonal, so its transpose is missing. Two objects cut from one mesh (`split_by_cell_partition` in `builder.rs`) share the vertices at the cut; self contact itself is rejected by the builder.
* C12 `contact_jacobian_shared_vertex_refuted`: When a vertex belongs to both sides of a contact (two materials of one mesh that share vertices), the two maps are not adjoint.
* C15 `tangent_basis_sprs_refuted`: The sparse tangent basis is not the tangential conversion.
* C62 `friction_power_shared_vertex_refuted`: With a vertex on both sides friction can add energy.
* C139 `rodrigues_rotation_refuted`: `rodrigues_rotation` (`jacobian.rs:1501-1512`) is given the gradient of the potential as it is. The formula is a rotation that takes the normal to the gradient only when the gradient is a unit vector; the gradient of the interpolated potential is not. For opposite vectors the identity is used.
* C141 `contact_product_rows_refuted`: `contact_jacobian_product_values` (`jacobian.rs:943-1005`) writes the products of the points that see the surface one after the other, while the matrices carry row indices. After a point with an empty neighbourhood all products are in the wrong rows and the last rows keep old values.
* C141 `contact_product_zero_refuted`: The contact products add the gradient of the background potential to the product with the multipliers (`jacobian.rs:1677, 1756`), so that they are not linear in the multipliers: zero velocities give a unit vector at points out of reach when the background is a distance.
* C140 `contact_map_refuted`: The comments say that the contact Jacobian times the unit normals is the gradient in the query points. Between two samples with tilted normals the product is 50/41 of it, and a uniform translation along the gradient is carried to 881/1025 of itself.
* C142 `vector_field_refuted`: `compute_local_vector_at` (`field.rs:1107-1150`) divides by the sum of the kernels although the summands also carry the agreement of the normals, and adds the background vector without dividing. Constant vectors are not reproduced: 0.578 of it between two tilted samples, 52/54 of it over a flat patch with a weighted input background.
* C11 `friction_assist_scale_independent_refuted`: The scale is computed relative to the already scaled direction and returned without converting back; with incoming scale 1/2 the returned scale is twice the turning point, where the sliding velocity has reversed.
* C194 `direct_slope_refuted`: Newton.rs:1010: with a direct solver the matrix was already rescaled by the preconditioner (l.1243-1247), and merit_jac_prod rescales its product again.  The slope of the Armijo condition is then too large by the preconditioner; with the default coefficient 1e-4 and an entry of 1e4 every step is rejected for a linear residual, also the step to its root.
* C45 `damping_torque_refuted`: With damping the net torque does not vanish.
* C82 `damping_injects_energy_refuted`: On a compressed element the Neo-Hookean damping force drives the motion instead of opposing it.
* C124 `weighted_input_jacobian_refuted`: With a weighted background whose value is read from the input the query Jacobian is computed as if that value were zero (jacobian.rs:1033 passes [None]); it is then not the derivative of the potential.
* C124 `weighted_interpolating_jacobian_refuted`: With a weighted background and the interpolating kernel the Jacobian treats the distance to the nearest sample, which scales the weights of the neighbours but not that of the background, as a constant; it is then not the derivative.
* C124 `empty_neighbourhood_jacobian_refuted`: Without neighbours the potential keeps its input, yet with a signed-distance background the full Jacobian is that of the distance to the nearest sample.
* C126 `reverse_sign_refuted`: Samples carry values besides normals, and reversing normals leaves the values: the potential does not change sign.
* C167, C169 `viscous_friction_jacobian_refuted`: With viscosity the change of the normal forces is multiplied with the whole friction force at multiplier one, the viscous part included, although that part does not depend on the normal force; full and incomplete Jacobians are then not derivatives of the force (penalty_point_contact.rs 2914-3420).
* C170 `lagged_friction_potential_gradient_refuted`: The lagged friction potential leaves out the coefficient of friction (penalty_point_contact.rs 2248-2289), so its gradient is not the friction force unless that coefficient is one.
* C174 `friction_derivative_places_refuted`: With fixed vertices the derivative of the transposed contact Jacobian is computed for free vertices only, but its blocks are stored one after the other at places computed for all vertices (problem.rs 1009-1014, 1637-1642, 1967-1972), so blocks of free vertices land at the places of others.
* C06 `friction_potential_gradient_refuted`: The friction potential carries no friction coefficient, so its derivative is not the friction force unless the coefficient is one.
* C07 `friction_coulomb_bound_with_viscosity_refuted`: The viscous part is not scaled by the normal force, so the Coulomb bound fails with viscosity, even at zero normal force.
* C08 `friction_jacobian_below_stribeck_refuted`: Below the Stribeck velocity with different static and dynamic coefficients the Jacobian is not the derivative of the force: the falloff slope divides by the square instead of the cube.
* C08 `friction_jacobian_at_rest_refuted`: At rest, with the default Stribeck velocity 0 and different coefficients (the default static coefficient is 0), the Jacobian is not the derivative either.
* C150 `query_hessian_multipliers_refuted`: `query_hessian_product_scaled_values` (`hessian.rs:173-190`) documents one multiplier per query point, but the multipliers are zipped with the query points that have neighbours (`hessian.rs:229-238`). With one multiplier per query point, those after a point without neighbours get the wrong one. The callers in `penalty_point_contact.rs` pass one per active contact.
* C151 `weighted_distance_mixed_hessian_refuted`: `sample_query_hessian_component_at` (`hessian.rs:2078-2120`) leaves out the derivatives of the background field. For a weighted distance background the result is wrong: for a triangle moving towards the query point the gradient does not change, while the blocks give a rate of 3/2.
* C02 `interpolating_kernel_bounded_refuted`: The interpolating kernel exceeds every bound near the sample (by design it interpolates).
* C03 `approximate_kernel_smooth_at_radius_refuted`: Fails for the approximate kernel: it is continuous but has a kink at the radius, for all parameters.
* C63 `radial_hessian_at_sample_refuted`: Fails at the sample: the reported Hessian is zero while the gradient has slope [-6/r^2].
* C32 `bicgstab_success_refuted`: With a rotation matrix the solver restarts, forgets the right-hand side, and reports success with residual zero although the true residual is (1, -1), for every tolerance.
* C67 `bicgstab_exact_start_refuted`: For every operator and every right-hand side other than zero, starting at the exact solution ends with the NaN status and a solution vector that is not finite.
* C66 `bicgstab_two_iterations_refuted`: The solver is documented as BiCGSTAB, which ends on an n-dimensional system after at most n iterations in exact arithmetic unless it breaks down. Because [rho] starts at one instead of [(r0s, r0)] (bicgstab.rs:171), the positive definite system diag(1, 2) x = (2, 2) is not solved after two iterations from zero: the relative residual is still above one half.
* C58 `inertia_diagonal_panics_refuted`: The guard of the solid's diagonal compares a vertex index with the number of coordinates, so a fixed vertex whose index is below that number is an index out of range; the shell has no guard.
* C83 `shell_inertia_product_refuted`: The product is assigned rather than added, so only the last triangle around a vertex counts.
* C84 `rigid_gradient_needs_symmetry_refuted`: With a non-symmetric inertia tensor the gradient is not the derivative of the energy (the code never checks symmetry).
* C20 `mcp_jacobian_agree_refuted`: On an active bound the product returns the residual [x - u] instead of the direction's component, whatever the direction; matrix and product differ.
* C65 `mcp_active_tests_scaled_refuted`: The Newton loop passes the residual scaled by the diagonal preconditioner to the activity tests (newton.rs:1065, 1173, 1247-1253), so a free component is treated as being at its bound, and an active one as free.
* C56 `caches_go_stale_refuted`: Neither moving the surface nor enlarging the radius or the maximal step invalidates cached neighbourhoods (query.rs:275-319); until the next reset samples in range are missing.
* C127 `change_flag_collision_refuted`: Changes of cached neighbourhoods are detected by comparing 64 bit hashes; collisions hide changes (false negatives, where the comment at neighbor_cache.rs:120-122 speaks of false positives).
* C128 `potential_out_of_range_refuted`: Out of range of all samples the input value is returned even for a distance background (field.rs:1005-1034).
* C128 `ties_depend_on_order_refuted`: With a weighted signed distance background and two nearest samples the potential depends on the order in which the search tree lists neighbours.
* C129 `neighborhood_vertices_refuted`: Neighborhood_vertex_indices lists the vertices of the trivial set only, so for vertex samples it misses columns of the surface Jacobian, which uses the extended set (query.rs:226-249).
* C130 `chunks_without_points_refuted`: Without query points the chunk size is zero and par_chunks panics (jacobian.rs:176-239).
* C23 `newton_sufficient_decrease_refuted`: After reversing an ascent direction the code keeps the positive slope, so an accepted step may increase the merit. Here the merit is a smooth objective, the residual its derivative and the Jacobian its second derivative.
* C24 `newton_epsilon_restored_refuted`: Every other exit of an adaptive solve leaves the enlarged parameters behind, and the next solve takes them for the user's.
* C59 `newton_line_search_panics_refuted`: With the default factor 0.9 and no writable ./out directory a line search that cannot make progress panics.
* C68 `newton_reported_step_taken_refuted`: After a failed line search the reported step is smaller than the one taken by the backtracking factor.
* C70 `newton_success_without_progress_refuted`: With the step-size criterion enabled a failed line search, which barely moves, is reported as Success although no step was accepted and the merit went up.
* C190 `approximate_diagonal_friction_scale_refuted`: `compute_physical_preconditioner` (problem.rs:2255-2261) scales the friction blocks by `kappa * h * h`; the Jacobian (1948-1995) has one factor `h`, as the commented-out loop above (2214-2232) had.  `kappa` also multiplies the viscous part, which does not depend on the normal force.
* C188 `approximate_diagonal_misses_volumes_refuted`: `compute_physical_preconditioner` (problem.rs:2125-2305) adds inertia, elasticity, contacts and friction to the diagonal but no volume constraint, although the matrix-free product it preconditions contains them.
* C133 `projection_reports_success_refuted`: Projection reports failure if it succeeds in the last allowed iteration: the count is tested before the values are (query.rs:553-638).
* C133 `projection_keeps_input_refuted`: With an input background projection reads the value of the previous iteration as background, so points on the right side are moved on.
* C133 `projection_of_far_points_refuted`: A point out of reach of every sample has the value of a zeroed buffer, so projection reports failure for points that are on the right side of the background field.
* C184 `early_keyframes_refuted`: `Scene::run_with` (scene.rs:743-768) looks for the next keyframe after each step, so a keyframe for frame 1 takes effect after step 1, and it takes at most one keyframe per step, so the delay stays until the animation has a gap. `set_keyframes` accepts repeated frames, with the same effect.
* C185 `sfrb_reports_errors_refuted`: `load_from_sfrb` (scene.rs:650) reads `bytes[0]` of what follows the configuration without checking that anything follows: a truncated file panics instead of giving `MissingNewlineBeforeBinaryData`. The documentation of `add_keyframe` also restricts its panic to frame 0, but the number of positions is asserted for every frame.
* C114 `tet_mass_fourth_corner_refuted`: The fourth corner of a tetrahedron receives no mass although it is the corner of an element; the other three receive a third each.
* C114 `tet_forces_fourth_corner_refuted`: Nor does it receive its elastic force: the force attribute of that vertex stays zero although the energy has a gradient there, and the forces on the element do not add up to zero.
* C115 `unsigned_material_ids_refuted`: Unsigned ids are removed from the cells and inserted at the vertices, so a problem whose materials are given by ids of type u8 or u32 is never built, whatever the ids are.
* C116 `wide_fixed_flags_refuted`: Values that do not fit 8 bits are taken for zero, so a vertex whose flag is 200 or 256 is free.
* C119 `shell_tetrahedra_have_mass_refuted`: The vertices of a tetrahedron with the material of a shell are free degrees of freedom, but no element is built from it; they have no mass, and their inverse mass is one over zero.
* C120 `static_contacts_recorded_refuted`: In a static simulation a contact that also has friction parameters is dropped as a whole, without an error, so the objects penetrate freely; the same contact without friction is kept.
* C121 `no_materials_panic_refuted`: Without any material the construction panics on the first cell, instead of reporting an error.
* C121 `source_indices_panic_refuted`: Source indices given with the mesh must be smaller than the number of its vertices, or the construction panics.
* C121 `unsigned_object_ids_panic_refuted`: Object ids of an unsigned 8 bit type make the construction panic, even if no contacts are asked for, when there are as many cells as vertices; the ids are then accepted as ids of the vertices and missing on the cells.
* C95 `collapsed_triangle_gradient_refuted`: A triangle that has collapsed to a line has infinite energy but a gradient of zero.
* C102 `shell_damping_torque_refuted`: Damping also resists a rigid rotation of an unstretched triangle, with a torque.
* C36 `fixed_vertices_stale_velocity_refuted`: When the supplied array is too short a fixed vertex stays in place but keeps the velocity of its last displacement.
* C37 `supplied_source_index_loses_vertex_refuted`: A mesh that already carries the source index attribute keeps it unchecked (objects.rs:26-42). A repeated index loses a vertex silently and an index that is out of range panics.
* C29 `step_keeps_time_step_refuted`: When the first stage of a two-stage scheme fails, step returns early and the shortened time step stays, so that all later steps are scaled by it.
* C30 `step_commits_max_step_refuted`: A step beyond the maximum step (contacts may have been missed) is committed as an ordinary result; only the contact violation leads to another attempt.
* C72 `step_error_commits_nothing_refuted`: When the second stage of a two-stage scheme fails, the first stage stays committed although the step returns an error.
* C138 `empty_surface_builds_refuted`: The builder of implicit surfaces says it returns None when points are empty (builder.rs:216-219, 337-339), but does not check: a triangle mesh without points and an explicit radius is built, and its first query panics when it asks for the nearest sample.
* C138 `zero_radius_builds_refuted`: The builder says it returns None when the base radius is zero (builder.rs:216-219), but only the multiplier is checked (builder.rs:360-373): a surface whose kernel reaches nothing is built.
* C138 `faceless_mesh_panics_refuted`: A triangle mesh with points but without triangles, sampled at vertices with no radius given, panics in compute_base_radius (builder.rs:166-191) instead of returning None.
* C138 `documented_offsets_refuted`: The offsets attribute is documented as offsets (builder.rs:66-67, 91) but read as offset (builder.rs:119-124); an attribute with the documented name is silently ignored and all values are zero.
* C138 `face_velocities_lost_refuted`: Velocities of face samples are averages of the attribute V when built (builder.rs:289-299), but every update replaces them with the unit vector along the first edge (samples.rs:191-220), even if nothing moves.
* C138 `isolated_vertices_refuted`: A vertex of no triangle is a sample with a zero normal, whose direction is then 0/0 in floating point.
* C154 `surface_hessian_multipliers_refuted`: `surface_hessian_product_scaled_values` (`hessian.rs:317-335`) documents one multiplier for each query point, but the multipliers are zipped with the query points that have neighbours (`hessian.rs:457-483`). With one multiplier per query point, those after a point without neighbours get the wrong one.
* C135 `point_cloud_jacobian_refuted`: A point cloud can be made into an implicit surface with vertex samples (lib.rs:138), but it has no dual topology (builder.rs:148-161), so the surface Jacobian indexes out of range (field.rs:1365), and update() recomputes the normals from no triangles, which makes all of them zero (samples.rs).
* C75 `first_step_trapezoidal_refuted`: A fresh problem starts with zero previous force, so the first step of the trapezoidal rule applies half of the force.
* C107 `nonmanifold_edges_captured_refuted`: No bending is modelled across an edge where three sheets meet, although the documentation of the elements says that bending at edges that are not manifold is captured.
* C107 `repeated_corner_pairs_refuted`: A triangle with a repeated vertex is paired with itself, so [simple] is needed.
* C110 `rigid_triangles_supported_refuted`: The elements ignore the material when they select triangles, so a mesh with a triangle of a rigid body is rejected.
* C110 `degenerate_cells_reported_refuted`: The reported indices of degenerate elements are positions in the list of selected triangles, not cells of the mesh: here cell 0 is blamed, a tetrahedron, although cell 1 is degenerate.
* C134 `update_without_rebuilding_refuted`: ImplicitSurfaceBase::update without rebuilding leaves the boxes of the search tree where they were (field.rs:375-407), so searches that prune by boxes miss samples in range and the nearest sample.
* C54 `laplacian_row_sum_refuted`: Merging duplicate entries of a shared edge doubles them, so rows of interior vertices do not sum to one.
* C54 `laplacian_weight_one_refuted`: With weight one the diagonal entry is dropped, one neighbour too few is counted, and even a single triangle has row sum two.
* C47 `young_poisson_refuted`: The divisor 1 - 2 nu of the first Lame parameter is multiplied instead (operator precedence, material.rs:496).
* C86 `open_surface_force_refuted`: On an open surface the pressure forces have a net resultant.
* C50 `constraint_rest_volume_refuted`: It reads per-corner reference positions with vertex indices, so already two tetrahedra sharing a face get a wrong rest volume and the constraint is violated at rest.
* C75 `first_step_bdf2_refuted`: A fresh problem has its previous state equal to the current one, so the first BDF2 step moves a free particle by two thirds of v dt.

