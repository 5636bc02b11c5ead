{"id": "C01", "title": "Compiled sparsity pattern is a valid CSR index of exactly the element couplings", "statement": "For a Problem, the CSR pattern compiled once per problem lists every (row, col) pair touched by some element (or surface) block exactly once and no other pair, in strictly increasing (row, col) order, and indptr delimits exactly the slots of each row. The slot map sends every COO entry to the slot holding its own (row, col).", "quantifier": "every matrix size and every finite list of COO (row, col) pairs in range, with any repetitions and any order", "why_tests_cant": "Meshes used in tests exercise a handful of connectivity graphs; the dedup/sort/cumsum construction has to be right for every multiset of pairs.", "anchors": ["feax/problem.py:Problem._build_csr_assembly_structure", "feax/csr.py:CSRMatrix"]}
{"id": "C02", "title": "Assembled matrix equals the sum of element contributions", "statement": "todense() of the assembled Jacobian has at (i, j) exactly the sum of all element-block entries whose local DOFs map to (i, j) - nothing lost, nothing counted twice, and 0 outside the pattern.", "quantifier": "every list of COO pairs, every list of values of the same length, every i and j, over any commutative ring of values", "why_tests_cant": "A lost or double-counted contribution only shows for particular connectivities; sums over all values cannot be enumerated.", "anchors": ["feax/assembler.py:_csr_data_from_values", "feax/problem.py:Problem._build_csr_assembly_structure", "feax/csr.py:CSRMatrix.todense"]}
{"id": "C03", "title": "Batched, padded and slot-sorted volume assembly equals plain assembly", "statement": "Cutting the cells into batches, padding the last batch with repeated cells, evaluating batch by batch with a scan and scatter-adding into slot-sorted buffers yields the same CSR data and residual as one plain scatter over all cells. The result does not depend on the number of batches.", "quantifier": "every number of cells (including 0, non-multiples of the batch size and fewer cells than the batch size), every per-cell kernel, every slot map", "why_tests_cant": "The padding boundary depends on num_cells mod batch size; tests run a few mesh sizes only.", "anchors": ["feax/assembler.py:_batching", "feax/assembler.py:_scan_vmap_batched", "feax/assembler.py:_assemble_volume_csr_data", "feax/assembler.py:_vol_slot_sort"]}
{"id": "C04", "title": "Fused residual+Jacobian assembly equals the separate assemblies", "statement": "The one-pass assembly used inside the Newton loop returns the same residual as get_res and the same Jacobian as get_jacobian for the same inputs.", "quantifier": "every problem connectivity, solution vector and parameter value; every number of cells", "why_tests_cant": "Two code paths must agree on every input; sampling cannot exclude a divergent case.", "anchors": ["feax/assembler.py:_assemble_volume_res_and_J", "feax/assembler.py:_get_res_J_csr", "feax/assembler.py:get_res"]}
{"id": "C05", "title": "Residual vector is the sum of element residuals", "statement": "Entry d of the global residual equals the sum of the entries of all cell and face residual blocks whose DOF index is d; DOFs touched by no element have residual 0.", "quantifier": "every connectivity, every block value, every DOF", "why_tests_cant": "Depends on index arithmetic of every connectivity and variable layout.", "anchors": ["feax/assembler.py:compute_residual_vars_helper", "feax/assembler.py:_res_vol_slot_sort", "feax/problem.py:Problem._build_inds"]}
{"id": "C06", "title": "Transpose maps give the true transpose; matvec and rmatvec are adjoint", "statement": "transpose_with_maps() returns a CSR matrix whose dense form is the transpose; rmatvec(y) equals that transpose times y; <A x, y> = <x, A^T y>.", "quantifier": "every compiled pattern, every data array, every pair of vectors", "why_tests_cant": "A wrong permutation in the transpose map shows only for structurally unsymmetric patterns or unsymmetric values; gradients would be silently wrong.", "anchors": ["feax/csr.py:CSRMatrix.transpose_with_maps", "feax/csr.py:CSRMatrix.rmatvec", "feax/csr.py:CSRTranspose", "feax/problem.py:Problem._build_csr_assembly_structure"]}
{"id": "C07", "title": "CSR operations agree with the dense matrix", "statement": "A @ x, A.diagonal() and A.todense() of a CSR matrix all describe one and the same matrix: (A @ x)_i = sum_j todense(A)_ij x_j and diagonal(A)_i = todense(A)_ii.", "quantifier": "every well-formed CSR pattern, data and vector", "why_tests_cant": "Universally quantified algebraic identity.", "anchors": ["feax/csr.py:CSRMatrix"]}
{"id": "C08", "title": "Triangular matrix views keep exactly one triangle and reconstruct the full symmetric product", "statement": "With MatrixView UPPER (LOWER) the stored matrix is exactly the upper (lower) triangle of the full assembled matrix, and the view-aware product A x + A^T x - diag(A) x equals the product with the full matrix whenever the full matrix is symmetric.", "quantifier": "every connectivity, all element values, every vector", "why_tests_cant": "The discard bucket and diagonal double-count affect particular entries only; must hold for every pattern.", "anchors": ["feax/problem.py:MatrixView", "feax/problem.py:Problem._build_csr_assembly_structure", "feax/solvers/common.py:_matvec_with_matrix_view"]}
{"id": "C09", "title": "Dirichlet elimination on the matrix", "statement": "Applying a Dirichlet BC to the assembled matrix turns every constrained row into the identity row (and, with symmetric elimination, every constrained column into the identity column) and leaves every other entry unchanged, provided every constrained DOF has a stored diagonal entry (it belongs to some element). Without one the claim is false: an entry of an unconstrained row is overwritten.", "quantifier": "every compiled pattern and every storage view, all values, every set of constrained DOFs with stored diagonals, both elimination modes; a counterexample for a constrained DOF outside every element", "why_tests_cant": "Depends on slot arithmetic for every pattern and every BC set; includes the case where a constrained DOF has no diagonal entry.", "anchors": ["feax/DCboundary.py:apply_boundary_to_J_csr"]}
{"id": "C10", "title": "Symmetric elimination preserves symmetry, is idempotent and ignores the prescribed values", "statement": "If the assembled matrix is symmetric so is the eliminated one; applying the same BC twice changes nothing; the eliminated matrix depends only on which DOFs are constrained.", "quantifier": "every symmetric matrix and BC set", "why_tests_cant": "Symmetry for every matrix is what licenses CG/Cholesky; a test checks a few matrices.", "anchors": ["feax/DCboundary.py:apply_boundary_to_J_csr", "feax/DCboundary.py:DirichletBC.replace_vals"]}
{"id": "C11", "title": "Dirichlet rows of the residual", "statement": "After applying a BC to the residual, constrained entries equal sol - scale*value of that DOF and all other entries are unchanged; hence the BC residual vanishes exactly when the prescribed values are met and the free residual is zero.", "quantifier": "every residual, solution, BC with pairwise distinct rows, every scale", "why_tests_cant": "Must hold for all BC sets and orderings.", "anchors": ["feax/DCboundary.py:apply_boundary_to_res"]}
{"id": "C12", "title": "BC construction from specs", "statement": "create_bc yields strictly increasing, in-range, pairwise distinct rows; the mask marks exactly those rows; and where several specs constrain the same DOF the value of the first spec (in configuration order within a variable) wins. A configuration built by a chain of add calls raises ValueError exactly if some component is not valid, and otherwise constrains exactly the nodes and components one of the calls applies to, in every variable, with the value of the first such call: add has no way to restrict a condition to one variable. Taking the compiled conditions apart into their arrays and putting them together again gives the same conditions.", "quantifier": "every list of specs, every node selection (with duplicates), every number of variables, components and nodes", "why_tests_cant": "Overlaps between specs (edges, corners) come in unboundedly many combinations.", "anchors": ["feax/DCboundary.py:DirichletBCConfig.create_bc", "feax/DCboundary.py:DirichletBCSpec"]}
{"id": "C13", "title": "Matrix-free Jacobian product equals the assembled, BC-eliminated product", "statement": "With matrix_free=True and the full storage view, the operator handed to the Krylov solver maps every v to the same vector as the assembled eliminated matrix, for both elimination modes, and the residuals agree. With a triangular view the two operators differ (the assembled one is only the stored triangle).", "quantifier": "every Jacobian, BC set and vector", "why_tests_cant": "Solver results depend on exact operator equality on all vectors.", "anchors": ["feax/assembler.py:create_matfree_res_J_parametric", "feax/DCboundary.py:apply_boundary_to_J_csr"]}
{"id": "C14", "title": "One linear solve satisfies the discrete equations", "statement": "For a problem with affine residual, the solution returned by the linear solver meets the prescribed values and makes every free residual entry zero. With symmetric elimination this needs the initial guess to carry the prescribed values already; the default guess does unless the call overrides the BC with other values, in which case the result is wrong.", "quantifier": "every stiffness matrix, load, BC, initial guess for which the eliminated system is solved exactly", "why_tests_cant": "Exactness for all initial guesses/BC overrides is a universal statement; the failing combination (BC override with the default guess) is easy to miss.", "anchors": ["feax/solvers/linear.py:create_linear_solver", "feax/solvers/linear.py:linear_solve", "feax/solvers/common.py:create_x0"]}
{"id": "C15", "title": "Adjoint of the Newton solver is the exact transposed solve", "statement": "The multiplier used by the Newton backward pass, including its correction on constrained rows, solves J_true^T lambda = v for the non-symmetric eliminated Jacobian J_true, so the returned cotangent equals the derivative given by the implicit function theorem - for parameters and for prescribed values. This holds with full matrix storage (direct) and, for the Krylov path, with row elimination or a symmetric free block; with a triangular matrix view the gradient is wrong.", "quantifier": "every Jacobian, BC set, cotangent v, parameter perturbation", "why_tests_cant": "Gradients are linear maps over all perturbation directions; finite-difference tests probe a few.", "anchors": ["feax/solvers/newton.py:create_callback_newton_solver", "feax/solvers/newton.py:_create_differentiable_newton_solver"]}
{"id": "C16", "title": "Adjoint of the linear Krylov solver under symmetric elimination", "statement": "The Krylov backward pass of the linear solver uses the forward operator in place of its transpose when symmetric elimination is on; that operator is the true transpose exactly when the free block is symmetric, and then the parameter gradient is exact. The gradient with respect to the prescribed values is not exact under symmetric elimination.", "quantifier": "every Jacobian, BC set and cotangent", "why_tests_cant": "Holds on all symmetric problems tested; fails on unsymmetric operators.", "anchors": ["feax/solvers/linear.py:create_linear_solver"]}
{"id": "C17", "title": "Armijo backtracking picks the first acceptable step and never increases the residual", "statement": "The line search returns the largest step among 1, rho, rho^2, ... that satisfies the sufficient-decrease test with a finite trial residual; an accepted step strictly reduces the residual norm; if none qualifies it reports failure and takes the tiny fallback step, which may increase the norm.", "quantifier": "every residual function, direction, backtracking budget and constants 0<c1, 0<rho<1", "why_tests_cant": "Quantifies over all residual landscapes.", "anchors": ["feax/solvers/newton.py:create_armijo_line_search_scan"]}
{"id": "C18", "title": "Newton iteration control", "statement": "The Newton loop performs at most max_iter iterations, stops as soon as a tolerance is met or the line search fails, its residual norm strictly decreases over accepted steps, and the norm it tests is the norm at the solution it returns. A NaN residual at the initial guess ends the loop without an error.", "quantifier": "every sequence of residual norms (including NaN), max_iter and tolerances", "why_tests_cant": "All execution lengths and NaN at any point.", "anchors": ["feax/solvers/newton.py:create_callback_newton_solver", "feax/solvers/newton.py:create_newton_solver"]}
{"id": "C19", "title": "TracedParams container laws", "statement": "Flattening a TracedParams lists the volume variables then the surface variables surface by surface, unflattening inverts it, mapping over leaves maps every entry; replace_volume_var(i, v) changes entry i only and replace_surface_var(s, i, v) changes entry (s, i) only; indices follow Python (negative from the end), any other index is rejected.", "quantifier": "every container shape and index", "why_tests_cant": "All shapes and indices.", "anchors": ["feax/traced_params.py:TracedParams"]}
{"id": "C20", "title": "A parameter array has one meaning", "statement": "On a mesh whose number of cells differs from every variable's number of nodes, a volume variable has exactly one meaning fixed by its leading size: one value (or row) per node of the first variable with that many nodes is interpolated with that variable's shape functions; one value per cell is the value at all quadrature points of the cell; (num_cells, num_quads) is taken pointwise; the energy functional reads the same values (single-variable problems); uniform constructors give the constant everywhere; a single-variable Solution means the node variable of its DOFs. When num_cells equals num_nodes the assembly paths disagree (refuted), and unrecognised shapes are silently accepted (refuted).", "quantifier": "every shape and every mesh size (num_cells, num_nodes, num_quads)", "why_tests_cant": "Ambiguity appears only when num_cells = num_nodes.", "anchors": ["feax/assembler.py:classify_volume_var", "feax/assembler.py:gather_internal_vars", "feax/assembler.py:create_energy_fn"]}
{"id": "C21", "title": "Solution fields partition the DOF vector", "statement": "Solution.field(i) returns, for every variable, its own DOFs: the fields tile the flat vector in order without overlap or gap, entry (node, comp) of field i is DOF offset_i + node*vec_i + comp, the same numbering used by assembly and BCs.", "quantifier": "every number of variables, nodes and components", "why_tests_cant": "All layouts.", "anchors": ["feax/solution.py:Solution", "feax/problem.py:Problem.__post_init__"]}
{"id": "C22", "title": "StructuredGrid index maps are bijections", "statement": "cell_id/cell_ijk and node_id/node_ijk are mutually inverse on the grid, ids fill 0..n-1, and cell_to_nodes lists the 8 distinct corner nodes of that cell in HEX8 order, all in range.", "quantifier": "all grid dimensions and ids", "why_tests_cant": "All sizes.", "anchors": ["feax/spgrid.py:StructuredGrid"]}
{"id": "C23", "title": "Point location on a StructuredGrid", "statement": "point_cells returns the cell whose half-open box contains the point, and -1 exactly for points outside; with a target spacing h and pad > 0, every point given to fit() lies inside the fitted grid. (fit with explicit dims always leaves the points that attain the bounding-box maximum outside, and h with zero padding can too: both are proved as counterexamples.)", "quantifier": "every point cloud, spacing and padding", "why_tests_cant": "Boundary points and degenerate extents.", "anchors": ["feax/spgrid.py:StructuredGrid.fit", "feax/spgrid.py:StructuredGrid.point_cells"]}
{"id": "C24", "title": "Cell dilation is the clipped Chebyshev neighbourhood", "statement": "dilate_cells(cells, r) returns exactly the in-grid cells within Chebyshev distance r of some given cell, sorted and without duplicates; it is monotone, contains its input and composes additively.", "quantifier": "every grid, cell set and radius", "why_tests_cant": "All sets and radii.", "anchors": ["feax/spgrid.py:StructuredGrid.dilate_cells"]}
{"id": "C25", "title": "SparseDesign behaves like a finite map", "statement": "After any sequence of updates, each with distinct ids that fit in a signed 32-bit integer, gathering such an id returns the last value written for it, or the default if none was, and ids() lists exactly the written ids, increasing. (Queries beyond 32 bits alias, and duplicate ids within one update leave the kept value to the sort routine: proved as counterexamples.)", "quantifier": "every sequence of update operations and every queried id", "why_tests_cant": "All histories; int32 casting of 64-bit ids matters only beyond 2^31.", "anchors": ["feax/spgrid.py:SparseDesign"]}
{"id": "C26", "title": "Narrow-band gather/scatter", "statement": "Scattering band values to the full mesh and gathering back is the identity on the band; gathering then scattering restores the full array on the band and leaves the fill value elsewhere (parameters: provided cell and node counts differ on the mesh and on the band; cells: the mesh has more than one cell); band node numbering is an increasing bijection with the nodes of the active cells and preserves every cell's corner points; a field-built band consists of the cells within margin node-sharing steps of a seed cell, plus the kept ones. (Counterexamples are proved without the guards.)", "quantifier": "every mesh, active set and array", "why_tests_cant": "All active sets.", "anchors": ["feax/narrowband.py:NarrowBand"]}
{"id": "C27", "title": "SupersetBand always contains the required cells", "statement": "After every step the superset band contains all cells of the current narrow band, and, when guard <= margin, all cells within guard rings of it; it is rebuilt exactly when that containment with guard would fail. On a structured grid a ring is a Chebyshev dilation by one cell. (With guard > margin re-extraction is requested again right after one: proved as a counterexample.)", "quantifier": "every sequence of active sets", "why_tests_cant": "All histories of a moving band.", "anchors": ["feax/narrowband.py:SupersetBand"]}
{"id": "C28", "title": "Structured mesh generation is a valid tiling", "statement": "rectangle_mesh(Nx, Ny) with Nx, Ny > 0 has (Nx+1)(Ny+1) points for QUAD4, (2Nx+1)(2Ny+1)-NxNy for QUAD8 and (2Nx+1)(2Ny+1) for QUAD9, and Nx*Ny cells; every node of every cell is in range and at its exact position in its grid square, corners first in counter-clockwise order; distinct nodes are distinct points and every node is used; every directed edge belongs to one cell, and its reverse to exactly one other cell if the edge is interior and to none on the boundary; every point of the rectangle lies in exactly one (half-open) cell.", "quantifier": "all Nx, Ny", "why_tests_cant": "All sizes.", "anchors": ["feax/mesh.py:rectangle_mesh"]}
{"id": "C29", "title": "Time loop lands on t_end", "statement": "A run visits strictly increasing times: its steps form a chain from the initial state at t_start, each of positive size and none beyond t_end, and it ends within 1e-14*dt of t_end. For fixed dt it ends after the least n with t_end - t_start <= (n + 1e-14) dt, all steps but the last of size dt. With adaptation it ends whenever dt_min > 0 and growth_factor >= 1 (with growth_factor < 1 it may never end).", "quantifier": "every pipeline, dt > 0, t_start <= t_end, adaptive configuration with positive dt_min and growth factor", "why_tests_cant": "All step sizes and durations.", "anchors": ["feax/solvers/time_solver.py:run"]}
{"id": "C30", "title": "Adaptive step size bounds", "statement": "With adaptive stepping each next dt is at most dt_max and at most growth_factor times the current one, and at least dt_min unless the growth limit is below it, for every controller output including NaN and infinities. If the initial dt lies in [dt_min, dt_max] and growth_factor >= 1 then every step of the run is at most dt_max, every step but the last at least dt_min, and each at most growth_factor times the one before. An initial dt outside the bounds is used as it is.", "quantifier": "every controller output and configuration", "why_tests_cant": "All controller outputs.", "anchors": ["feax/solvers/time_solver.py:run"]}
{"id": "C31", "title": "Snapshots and history of a time run", "statement": "With an output directory, exactly the steps 0, all multiples of save_every, and the final step are saved, each exactly once and in increasing order; the in-memory history has one entry per step including step 0 while the CSV has one row per step starting at 1; each callback fires exactly at multiples of its period.", "quantifier": "every number of steps, save_every and callback periods >= 1", "why_tests_cant": "Off-by-one at the final step for all step counts.", "anchors": ["feax/solvers/time_solver.py:run"]}
{"id": "C32", "title": "Multigrid transfer reproduces trilinear fields and its restriction is the transpose", "statement": "For every band (active cell set) and every pair of consecutive multigrid levels, each fine node's interpolation row has eight non-negative weights summing to 1, uses only coarse band nodes within one fine step, and interpolates every trilinear field exactly; restriction is the exact transpose of prolongation; the coarse density of a cell is the mean over its children, at least one, so density bounds carry over.", "quantifier": "every grid size (odd or even), every active set, every node", "why_tests_cant": "Missing parents occur only for special band shapes; must hold for all.", "anchors": ["feax/solvers/cmg.py:NarrowBandCMG._build_transfer", "feax/solvers/cmg.py:NarrowBandCMG.build"]}
{"id": "C33", "title": "8-colour smoothing never updates two coupled nodes together", "statement": "On every level, two distinct nodes with the same colour never belong to a common cell, so the update of one colour equals updating its nodes one after the other in any order; with exact block inverses and a symmetric element matrix the equations of all nodes of that colour hold exactly after the update.", "quantifier": "every grid and every pair of nodes", "why_tests_cant": "All pairs of nodes.", "anchors": ["feax/solvers/cmg.py:NarrowBandCMG.build"]}
{"id": "C34", "title": "Merging CSR patterns", "statement": "merge_csr_patterns succeeds exactly when the shapes agree and every explicitly stored zero is covered by a true entry; the result stores, with valid row pointers and strictly increasing columns per row, exactly the positions in either pattern. For two matrices stored with sorted duplicate-free rows, scattering both data arrays through the returned slot maps gives their sum, and the returned transpose maps give the transpose of that sum (so bulk tangent + extra tangent and its adjoint are assembled exactly). For rows stored in another order the maps do not match the data, and an uncovered explicit zero makes the call fail. The pattern of P\u1d40KP covers every numerically non-zero entry, and verify_jacobian_pattern reports ok exactly when the detected pattern is contained in the connectivity pattern.", "quantifier": "every pair of patterns and data", "why_tests_cant": "All pairs.", "anchors": ["feax/asd.py:merge_csr_patterns", "feax/solvers/newton.py:create_newton_solver"]}
{"id": "C35", "title": "Periodic prolongation matrix", "statement": "If no master DOF is itself a slave, u = P u_red assigns every slave DOF the value of its master and every other DOF its own independent value; the range of P is exactly the set of vectors satisfying all pairings and every column index is valid. Construction succeeds exactly if there is at least one pairing, every master has exactly one partner and no DOF is a slave twice. (Chained or self pairings are accepted silently and yield a negative column: refuted.)", "quantifier": "every number of DOFs and every list of pairings that passes the consistency check", "why_tests_cant": "All pairings incl. chained corners/edges.", "anchors": ["feax/flat/pbc.py:prolongation_matrix"]}
{"id": "C36", "title": "Reduced solve enforces BCs it accepts", "statement": "The BC/periodicity check accepts exactly the BC sets made of whole periodic classes. The reduced operator P^T J P is symmetric when the free block of J is, the solution lies in initial guess + range(P), and the prescribed values are attained when value minus guess agrees on each class (in particular with the default guess), the residual of each free class then summing to zero for linear problems; parameter gradients are exact for a symmetric free block.", "quantifier": "every prolongation, BC set and Jacobian", "why_tests_cant": "All class structures.", "anchors": ["feax/solvers/reduced.py:_validate_bc_pairing", "feax/solvers/reduced.py:create_reduced_solver"]}
{"id": "C37", "title": "Direct backend auto-selection", "statement": "Auto selection returns only an available backend, never 'auto', prefers cuDSS, then CHOLMOD for SPD, then UMFPACK, then SciPy; on CPU it always succeeds; it keeps the user's other settings; explicit choices are honoured or rejected. The matrix the chosen backend factorises is the assembled one for a full view, and for a triangular view when the backend is cuDSS or CHOLMOD (refuted otherwise: a symmetric indefinite matrix stored as a triangle is given to UMFPACK, which factorises the triangle). A symmetric matrix is never classified as general, and is classified SPD exactly when its diagonal is positive (so indefinite and some nonsymmetric matrices can be classified SPD: refuted).", "quantifier": "every set of available backends, matrix property and view", "why_tests_cant": "All combinations of environment.", "anchors": ["feax/solvers/options.py:resolve_direct_solver", "feax/solvers/options.py:detect_matrix_property"]}
{"id": "C38", "title": "Iterative method auto-selection keeps the user's settings", "statement": "Auto selection picks cg / bicgstab / gmres by matrix property and changes nothing else in the options except the GMRES restart length, which is lost (refuted for restart); explicit methods are untouched; a user preconditioner always wins over the Jacobi flag, which is ignored for matrix-free operators.", "quantifier": "every option record and matrix property", "why_tests_cant": "All option combinations.", "anchors": ["feax/solvers/options.py:resolve_iterative_solver"]}
{"id": "C39", "title": "create_solver dispatch", "statement": "create_solver accepts exactly the documented combinations (given as a separate predicate), raises ValueError/TypeError for unsupported ones, and routes linear / Newton / AMG-rebuild / extra-residual / reduced requests to the corresponding solver with the forward and adjoint options requested ('auto' decided, settings kept), the adjoint defaulting to the forward solver. Exceptions, each refuted: the elimination mode is ignored by linear and reduced solvers; with AMG at its default rebuild policy the extra residual and the adjoint options are dropped; Krylov forward with a direct adjoint and an extra residual is accepted although the adjoint operator is matrix-free; the reduced path ignores linear=False.", "quantifier": "every combination of arguments", "why_tests_cant": "Combinatorial configuration space.", "anchors": ["feax/solver.py:create_solver"]}
{"id": "C40", "title": "Batched direct solve is the batch of single solves", "statement": "Under vmap the direct solvers (SciPy, CHOLMOD: one block-diagonal system; UMFPACK: columns, one block system or one shared factor) return, in slice k, a solution of system k; the assembled matrix is block diagonal with the individual matrices however the backend reads it (plain, transposed, one triangle); if every system is regular the batched call succeeds and slice k equals the single call; malformed shapes are rejected. Systems with different sparsity patterns are not rejected and give wrong answers (refuted).", "quantifier": "every batch size, pattern and values", "why_tests_cant": "All batch sizes and patterns.", "anchors": ["feax/solvers/direct/_callback_utils.py:assemble_batched_csr_arrays_np", "feax/solvers/direct/spsolve.py"]}
{"id": "C41", "title": "Factorisation cache never goes stale", "statement": "For any history of calls, with any mixture of configurations, cache namespaces, patterns, values and failures, every CHOLMOD/UMFPACK solve returns what a fresh factorisation of that call's own matrix with that call's configuration would return.", "quantifier": "every sequence of solves with changing patterns and values", "why_tests_cant": "All call histories.", "anchors": ["feax/solvers/direct/cholmod.py:_factorize_and_solve_with_cache"]}
{"id": "C42", "title": "Continuation schedule", "statement": "A Continuation's value is initial until the first update, changes only at positive multiples of update_every, and for a step pointing from initial to final equals initial + n*step until that passes final, moves monotonically towards final, stays between initial and final and (non-zero step) reaches final and stays there. (With a step of the wrong sign the documented clamp does not hold, also for initial = final: proved as counterexamples.)", "quantifier": "every iteration and every configuration with update_every >= 1", "why_tests_cant": "All iterations and step signs.", "anchors": ["feax/gene/optimizer.py:Continuation.value_at"]}
{"id": "C43", "title": "Optimality-criteria update respects move limits, box bounds and the bracket", "statement": "oc_update always ends; when the bisection runs at least once the result lies in [xmin, xmax], and every entry moves by at most move when the input lies in the box; the result is the update for one end of a multiplier bracket of relative width bisect_tol whose other end lies on the other side of the volume target, and the volume is monotone in the multiplier, so the volume differs from the target by at most the volume difference across that bracket. (With l2_init small enough for the loop not to run the input is returned unclipped: proved as a counterexample.)", "quantifier": "every density, sensitivity and configuration", "why_tests_cant": "All inputs and bisection histories.", "anchors": ["feax/gene/narrowband.py:oc_update"]}
{"id": "C44", "title": "Optimisation epoch loop", "statement": "For an optimiser that honours its budget, optimizer.run evaluates the objective at most max_iter times, numbered 1, 2, ... without gaps; the budget it hands out is always at least 1; evaluation i uses the continuation values of iteration i-1; the optimiser object never holds constraints or bounds of an old mesh or parameter value; if each optimiser call evaluates at least once the loop ends with exactly max_iter evaluations and remeshing happens exactly at the first n_adapts_max multiples of adapt_every below max_iter; passive variables stay pinned on meshes with the initial node count. (Progress of an epoch ending in RoundoffLimited is discarded, passive indices stay in force on a remesh that keeps the node count, and the loop spins if the optimiser returns without evaluating: proved as counterexamples.)", "quantifier": "every behaviour of the optimiser within budget and all schedules", "why_tests_cant": "All schedules.", "anchors": ["feax/gene/optimizer.py:run"]}
{"id": "C45", "title": "Density filter is a linear, bound-preserving weighted average", "statement": "create_density_filter returns at every node the distance-weighted average of the documented formula (1e-12 added to the denominator), whatever the batch size; it is linear, maps fields in [0, m] to [0, m], reproduces constants up to 1e-12/radius, preserves the total when all nodes have the same weight sum, and rejects an unknown weight name. (The documented preservation of the total is false in general, and radius 0 with cone weights returns 0 everywhere: proved as counterexamples.)", "quantifier": "every point list, distance function, radius, weight type, batch size and field", "why_tests_cant": "All point clouds.", "anchors": ["feax/gene/filters.py:create_density_filter", "feax/gene/filters.py:_compute_density_filter_weights_sparse"]}
{"id": "C46", "title": "Edge list and adjacency matrix are interchangeable", "statement": "Converting edges (indices within the node count) to an adjacency matrix gives a symmetric 0/1 matrix joining exactly the listed pairs; converting back gives each joined pair once with the smaller index first, in row-major order; a symmetric 0/1 matrix with empty diagonal survives matrix-edges-matrix; for edges without self-loops the lattice membership function built from either representation agrees. (A self-loop, which marks a ball around its node in the edge-list form, is lost in the adjacency form: proved as a counterexample.)", "quantifier": "every graph without self-loops", "why_tests_cant": "All graphs.", "anchors": ["feax/flat/graph.py:edges2adjcentMat", "feax/flat/graph.py:adjcentMat2edges", "feax/flat/graph.py:universal_graph_from_adjmat"]}
{"id": "C47", "title": "Skipping surface tangents is sound", "statement": "A solver may decide to drop the surface Jacobian blocks. For dead loads (surface tangents that depend neither on the solution nor on the parameters) the tangent assembled afterwards is exact for every solution, every parameter set and every number of solvers created on the same problem. For loads linear in the solution it is exact for a single solver used with the surface parameters it was created with. If no creation detects zero tangents nothing is dropped. In general the claim is false: a load that is zero at creation but not later (parameter-dependent stiffness, contact) is dropped, and the decision is stored on the shared problem, so a second solver changes the first one's matrix.", "quantifier": "every surface map, solution, parameter set and sequence of solver creations", "why_tests_cant": "The probe samples a few states; the claim is for all.", "anchors": ["feax/assembler.py:detect_zero_surface_jacobian", "feax/solvers/linear.py:create_linear_solver"]}
{"id": "C48", "title": "Assembly scratch lifecycle", "statement": "In every history of from_problem / free_assembly_scratch / assembly calls on one problem, each assembly either returns exactly what it returns on a problem that was never released, or raises. With a TracedStructure built earlier it always succeeds. Without one it raises exactly when an earlier call released the maps. The reference helpers raise after any release. Rebuilding the TracedStructure after a release always raises, contrary to the advice in the error text.", "quantifier": "every sequence of from_problem / assembly / free operations", "why_tests_cant": "All histories.", "anchors": ["feax/problem.py:Problem.free_assembly_scratch", "feax/traced_structure.py:TracedStructure.from_problem"]}
{"id": "C49", "title": "Element node reordering tables are permutations", "statement": "The node-order conversion table of every element type is a permutation of its nodes and matches the two published numbering conventions (each mesh node sits where its table entry's node sits). Converting face indices never fails on nodes of the element, loses none, and is inverted by the table, so reordered shape values picked at reordered indices are the original ones. An index outside the element raises.", "quantifier": "every element type with a table, every list of indices, every tabulated value list", "why_tests_cant": "Finite domain: settled by computation.", "anchors": ["feax/basis.py:reorder_inds"]}
{"id": "C50", "title": "Band sensitivity filter equals the full-grid filter", "statement": "The O(band) sensitivity filter gives on every active cell the same value as the full-grid cone-weighted formula (sum over all grid cells) when density times sensitivity vanishes outside the band; only cells closer than rmin contribute, non-positive sensitivities stay non-positive and a uniform design is reproduced. (Unsorted active cells lose neighbours, and rmin <= 0 silences all sensitivities: proved.)", "quantifier": "every grid, sorted active set, density and sensitivity", "why_tests_cant": "All bands.", "anchors": ["feax/gene/filters.py:create_sensitivity_filter"]}
{"id": "C51", "title": "Default initial guess satisfies the BC", "statement": "zero_like_initial_guess is zero on free DOFs and equals the prescribed value on every constrained DOF, so Newton's first BC residual is zero.", "quantifier": "every problem size and BC with distinct rows", "why_tests_cant": "All BCs.", "anchors": ["feax/utils.py:zero_like_initial_guess"]}
{"id": "C52", "title": "Explicit schemes have their advertised order", "statement": "For du/dt = A u the 'euler', 'rk2' and 'rk4' steps are the Taylor polynomials of exp(dt A) u of degree 1, 2 and 4; for a right-hand side depending on t only they integrate polynomials of degree 0, 1 and 3 exactly.", "quantifier": "every linear operator, state, time, step size and polynomial coefficients", "why_tests_cant": "All operators and step sizes; a wrong stage weight shows only as a slower convergence rate.", "anchors": ["feax/solvers/time_solver.py:ExplicitPipeline.step"]}
{"id": "C53", "title": "Importing a Gmsh mesh keeps the selected cells", "statement": "Mesh.from_gmsh returns the cells of the requested element type when the file stores them in one block; with no type given it picks a volume element whenever the file has one and fails only if no supported block exists; the element-type name tables are mutually inverse. (With several blocks of one type all but the last are dropped: proved as a counterexample.)", "quantifier": "every list of cell blocks and every requested type", "why_tests_cant": "All block lists and orders.", "anchors": ["feax/mesh.py:Mesh.from_gmsh", "feax/mesh.py:get_meshio_cell_type"]}
{"id": "C54", "title": "Reading a mesh back from Gmsh keeps every element's corner points", "statement": "refine_mesh maps the node tags of every element to the points Gmsh reports for those tags, for every tag numbering and order; box_mesh does so when tags are 1..n in order, and drops exactly the unused points. (For another tag order box_mesh attaches wrong coordinates: proved as a counterexample.)", "quantifier": "every tag list, coordinate list and element list", "why_tests_cant": "Tag order is chosen by an external mesher.", "anchors": ["feax/mesh.py:refine_mesh", "feax/mesh.py:box_mesh"]}
{"id": "C55", "title": "The multigrid works in the narrow-band layout", "statement": "For active cells listed in increasing order the multigrid's finest level numbers cells and nodes exactly like NarrowBand, so a design array and the returned solution refer to the same cells and nodes; load_vector sets exactly the given component at exactly the given band nodes; auto_levels always finds the smallest depth whose coarsest grid reaches the floor. (Nodes outside the band silently load another node, and unsorted active cells are re-ordered: proved as counterexamples.)", "quantifier": "every grid size, active list, node list, component and value", "why_tests_cant": "All bands; a layout mismatch shows only as a wrong solution.", "anchors": ["feax/solvers/cmg.py:NarrowBandCMG.build", "feax/solvers/cmg.py:NarrowBandCMG.load_vector", "feax/solvers/cmg.py:auto_levels"]}
{"id": "C56", "title": "Lattice density fields mark exactly the points near an edge", "statement": "universal_graph returns 1 exactly when some edge's segment comes within the radius of the point (distance to the closest point of the segment, endpoints included) and 0 otherwise, and rejects a negative radius; create_lattice_density_field gives a cell the solid density exactly when its centroid is inside the lattice and the void density otherwise, and the nodal variant does so at every mesh node. The centroid is the mean of the cell's nodes, and a field is refused exactly when the lattice function refuses one of its sample points.", "quantifier": "every point, node list, edge list, radius, mesh and density pair", "why_tests_cant": "All graphs and points; the clamp to the segment's ends matters only off the ends.", "anchors": ["feax/flat/graph.py:universal_graph", "feax/flat/graph.py:_segment_distance", "feax/flat/graph.py:create_lattice_density_field", "feax/flat/graph.py:create_lattice_density_field_nodal"]}
{"id": "C57", "title": "Constraints, starting design and history of the optimisation driver", "statement": "The functions run registers with the optimiser are all non-positive exactly when every decorated constraint holds (f <= target, or target - tol <= f <= target + tol), with matching gradients; the default starting density is the smaller of 1/2 and the smallest upper target and lies within the bounds unless some target is below the lower bound; with distinct column names every history column has exactly one entry per evaluation, in order. (A negative target gives an infeasible start, and an equality constraint v next to a constraint v_lb doubles a column: proved as counterexamples.)", "quantifier": "every list of constraints, design, bounds and evaluation sequence", "why_tests_cant": "All constraint sets and evaluation histories.", "anchors": ["feax/gene/optimizer.py:constraint", "feax/gene/optimizer.py:_collect_constraints", "feax/gene/optimizer.py:run"]}
{"id": "C58", "title": "The moving narrow-band loop solves the band of the current design", "statement": "In every iteration of run_narrowband_oc the active cells are, after the exploration phase, exactly the kept cells and those within margin face steps of a cell denser than the threshold (before: all cells); the solver applied is the one built for exactly these cells and the compilation mode scheduled for this iteration, rebuilt only when one of them changed; from the first update on every density has one entry per cell in [xmin, 1]; cells outside the band only lose material, by the move limit down to xmin; the run always ends. (A margin of 0 activates the whole grid: proved.)", "quantifier": "every grid, keep mask, schedule, solver, filter, starting density and number of iterations", "why_tests_cant": "All histories of moving bands; a stale solver shows only as a slightly wrong design.", "anchors": ["feax/gene/narrowband.py:run_narrowband_oc"]}
{"id": "C59", "title": "Resolution ladder and level schedule", "statement": "run_narrowband_multires ends at the requested dimensions, has at most n_levels levels, each level being the next one divided by the factor, rounded to the nearest integer and kept at least floor; for a factor of at least 1 and dimensions of at least floor the levels are monotone in every direction; only the first level starts unseeded and explores the full grid; with two levels or more the last gets n_iter iterations; iteration numbers are consecutive. (Dimensions below floor give a coarse level larger than the final one, and a one-level ladder ignores n_iter: proved as counterexamples.)", "quantifier": "every dimension list, level count, factor, floor and iteration counts", "why_tests_cant": "All dimensions and factors.", "anchors": ["feax/gene/narrowband.py:_res_ladder", "feax/gene/narrowband.py:run_narrowband_multires"]}
{"id": "C60", "title": "Heaviside projection and volume-fraction threshold", "statement": "heaviside_projection maps every density into (0, 1), keeps their order and puts exactly the densities above the threshold above 1/2; with the threshold of compute_volume_fraction_threshold(rho, t) and pairwise different densities the solid share is ceil(t (n-1)) / n, within 1/n of the target. (The documented exact fraction is false, and with ties the share can miss the target completely: proved as counterexamples.)", "quantifier": "every density list, target, sharpness and threshold", "why_tests_cant": "All density lists; the deviation depends on n and on ties.", "anchors": ["feax/gene/filters.py:heaviside_projection", "feax/gene/filters.py:compute_volume_fraction_threshold"]}
{"id": "C61", "title": "Ready-made periodic pairings of a unit cell", "statement": "For every mesh whose opposite boundaries carry the same nodes, the pairings of periodic_bc_2D (any box) and of periodic_bc_3D (a box starting at the origin) are accepted by prolongation_matrix, and the resulting matrix spans exactly the fields that agree at all periodic images (faces, edges and corners), with one valid column per row and no redundant column. (A 3D box that does not start at the origin silently gets no face or edge constraints, and sides with different nodes can be accepted because the translation is the difference of centroids: proved as counterexamples.)", "quantifier": "every node set in every box, every number of components and every tolerance finer than the mesh", "why_tests_cant": "All node sets; corner, edge and face nodes are tied through chains that must not overlap.", "anchors": ["feax/flat/pbc.py:periodic_bc_2D", "feax/flat/pbc.py:periodic_bc_3D", "feax/flat/pbc.py:prolongation_matrix", "feax/flat/unitcell.py:UnitCell"]}
{"id": "C62", "title": "Cyclic prolongation matrix", "statement": "When no node is the partner of two masters, cyclic_prolongation_matrix is accepted exactly if every master has exactly one partner and no master is itself a partner; the matrix then spans exactly the fields with u_slave = R u_master at every pair, has only valid columns, no redundant column, and vec fewer columns per partner node. (Slave-plane nodes that no master maps to stay free, and of two masters of one node the first is dropped, both without an error: proved as counterexamples.)", "quantifier": "every node set, pairing, rotation matrix and number of components", "why_tests_cant": "All meshes and rotations.", "anchors": ["feax/flat/pbc.py:cyclic_prolongation_matrix"]}
{"id": "C63", "title": "The assembled residual is the discrete weak form", "statement": "For every accepted problem and every test vector v, v\u00b7R(u) equals the sum of the quadrature integrals the user wrote: the weak form (several variables) or mass map plus tensor map / energy gradient (one variable) at the interpolated fields and gradients of u, tested with the field of v, plus the surface terms of every boundary; a universal kernel replaces the standard volume terms, an extra kernel is added on top. Several variables without weak form or universal kernel, or with surface maps, are rejected.", "quantifier": "every mesh, every number of variables with their own elements and component counts, every physics callback, solution and test vector, every ring of scalars", "why_tests_cant": "All meshes, physics callbacks and coupled variables; a unit test compares a few patches.", "anchors": ["feax/assembler.py:create_volume_kernel", "feax/assembler.py:create_surface_kernel", "feax/assembler.py:_build_kernel_from_weak_form", "feax/assembler.py:_build_surface_kernel_from_weak_form", "feax/assembler.py:get_laplace_kernel", "feax/assembler.py:get_mass_kernel", "feax/assembler.py:get_surface_kernel", "feax/fe.py:FiniteElement.get_shape_grads", "feax/problem.py:Problem.__post_init__"]}
{"id": "C64", "title": "Energy, affine fields and rigid translations", "statement": "The residual assembled from an energy density is the gradient of the total energy returned by create_energy_fn; the discrete gradient of an affine nodal field is exactly its linear part wherever the element map is inverted correctly; and with stress terms only, translating the body changes no internal force and the internal forces sum to zero in every component.", "quantifier": "every mesh, element with constant shape-function sum, energy density with a derivative, displacement and direction", "why_tests_cant": "All meshes, densities and directions; finite-difference tests sample a few.", "anchors": ["feax/assembler.py:create_energy_fn", "feax/assembler.py:get_laplace_kernel", "feax/fe.py:FiniteElement.get_shape_grads"]}
{"id": "C65", "title": "Homogenized stiffness: work identity, symmetry, uniqueness, both solution paths", "statement": "For a linear elastic periodic unit cell, volume times C_hom[j,k] is the work of the internal forces of the k-th unit-strain response on the j-th response; C_hom is symmetric when the material is; C_hom does not depend on which solution of the singular cell problem the solver returns; the matrix-free path and the direct path (pinned translations, re-centred) both return true periodic responses when their linear solves are exact, hence the same C_hom; a homogeneous cell returns its own moduli; and the reverse pass of the direct path pairs with every perturbation exactly as the output cotangents do.", "quantifier": "every 2D/3D mesh and element, every linear material law per quadrature point, every master-slave prolongation that keeps components apart (all those built from independent pairings do), every exact linear solver, over every commutative ring with one half and an inverse of the volume", "why_tests_cant": "All cells, materials and solver outputs (the cell problem has many solutions); tests compare a few cells against reference numbers.", "anchors": ["feax/flat/solver.py:create_homogenization_solver", "feax/flat/solver.py:_create_direct_homogenization_solve", "feax/flat/solver.py:_translation_pin_dofs", "feax/flat/solver.py:average_stress", "feax/flat/solver.py:macro_displacement"]}
{"id": "C66", "title": "Directional Young's modulus is the tension-test modulus", "statement": "For every invertible 6x6 stiffness matrix and every direction, the directional Young's modulus times the elongation of the tension test along that direction (the strain the stiffness answers with the uniaxial stress n(x)n) is one. An isotropic material has its own modulus in every unit direction, so its stiffness sphere is a sphere. The direction is not normalised: scaling it by t divides the modulus by t^4. The sphere surface written to disk consists of exactly the unit squares of the (phi, theta) grid, each once, with valid point numbers.", "quantifier": "every stiffness matrix with a left inverse, every direction vector, every grid size, over every commutative ring with one half", "why_tests_cant": "All stiffness matrices (full anisotropy, with the engineering-shear factors) and all directions; a test compares a few cubic or isotropic cases.", "anchors": ["feax/flat/utils.py:compute_directional_youngs_modulus", "feax/flat/utils.py:visualize_stiffness_sphere"]}
{"id": "C67", "title": "Differential multiplier method: ascent on multipliers, KKT stationary points, stuck slacks", "statement": "prepare_update negates exactly the Lagrange multipliers wherever they sit in the tree, keeps the structure and all other arrays, and is its own inverse; so a step of sgd chained with it descends on ordinary parameters and ascends on multipliers. The gradient of objective plus combined constraint losses is: weight * g(x) for an equality multiplier, weight * (h(x) - slack^2) for an inequality multiplier, D f + weight * sum (lambda + damping * infeasibility) D constraint for the main parameters. The multiplier half of a step raises the loss by lr times the weighted squared infeasibilities. A step leaves a point where it is exactly when the point satisfies stationarity, feasibility and complementarity (KKT without the sign of the inequality multipliers). Multipliers start at zero, a satisfied inequality starts with zero infeasibility, a violated one with its violation, and zero infeasibility implies h >= 0. combine sums losses and collects infeasibilities in order. A slack that is zero never moves, so an inequality violated or active at the start is enforced as an equality.", "quantifier": "every parameter tree, every differentiable objective and vector constraint functions, every multiplier, slack, weight, damping and learning rate, every run length and every optimizer that answers zero gradients with zero updates, over every commutative ring (integral domain for the stationarity theorem)", "why_tests_cant": "Ranges over all objectives, constraints and optimizer runs; a test can only follow a few trajectories, and the stuck slack shows only when the constrained solution is interior.", "anchors": ["feax/gene/mdmm.py:prepare_update", "feax/gene/mdmm.py:optax_prepare_update", "feax/gene/mdmm.py:eq", "feax/gene/mdmm.py:ineq", "feax/gene/mdmm.py:combine"]}
{"id": "C68", "title": "Fibre-orientation design maps: admissible ranges, corners, positive semidefiniteness", "statement": "Every point of the design square is mapped by box_to_triangle to diagonal entries in (0, 1] with a1 + a2 <= 1 + 1e-6, and its corners go to the documented states up to the 1e-6 offset; every point of the design cube is mapped by box_to_tetrahedron to entries in [1e-6, 1] with trace at most 1 + 2e-6 (the documented bound 1 is exceeded by the offset, and zero entries are not reachable). smooth_sgn is odd, monotone, maps the box into [-1, 1] and is exact at the ends for every positive sharpness. orientation_tensor_2d is always symmetric positive semidefinite. orientation_tensor_3d is symmetric with non-negative 2x2 minors, has determinant a11 a22 a33 Delta with Delta = 1 + 2 s12 s13 s23 - s12^2 - s13^2 - s23^2, and is positive semidefinite exactly when Delta >= 0; in particular the sign controls (1, 1, -1) give an indefinite matrix at every design point. The array form of box_to_triangle works only for one point, or for eight points where the result does not depend on the points.", "quantifier": "every point of the design box, every off-diagonal control in [-1, 1] and every positive sharpness, over the real numbers; all arrays for the array form", "why_tests_cant": "The constraints must hold at every point a continuous optimizer may visit; sampling the box cannot exclude an inadmissible tensor between samples.", "anchors": ["feax/mechanics/orientation.py:box_to_triangle", "feax/mechanics/orientation.py:box_to_tetrahedron", "feax/mechanics/orientation.py:smooth_sgn", "feax/mechanics/orientation.py:orientation_tensor_2d", "feax/mechanics/orientation.py:orientation_tensor_3d"]}
{"id": "C69", "title": "Fourth-order orientation closures: exactness, contraction, symmetry and admissibility", "statement": "quadratic_closure is exact for a unidirectional state and for no other fibre distribution; its contraction is tr(a2) a2. linear_closure is defined exactly for dimensions 2 and 3, is fully symmetric, exact for the isotropic state, satisfies the contraction identity for unit trace and gives a negative fourth moment for an aligned state. hybrid_closure mixes the two with a factor f = 1 - d^d det(a2) that lies in [0, 1] for every positive semidefinite a2 of trace at most one, is the quadratic closure for rank-one a2 and exact for the isotropic one. build_a4_2d is fully symmetric; with eps = 0 its contraction is a2 and, for every positive semidefinite a2 of positive trace, it is the trace times the fourth moment of a fibre distribution with second moment a2 / trace exactly when (y1, y2) is in the unit disk (rank-one a2: always, with value tau n^4); every distribution's fourth moment is reached by some (y1, y2). With the default eps > 0 the contraction identity is off by the factor tau / (tau + eps) on the deviator. principal_direction returns a unit eigenvector of the largest eigenvalue, which lies in [1/d, 1] for every fibre distribution, and scaling multiplies by it.", "quantifier": "every finite fibre distribution, every (positive semidefinite) second-order orientation tensor, all parameters y1, y2, eps; every dimension for the quadratic closure and the principal direction; over the real numbers", "why_tests_cant": "Admissibility is an existence statement about a distribution for every point of a continuum of tensors and parameters.", "anchors": ["feax/mechanics/orientation.py:quadratic_closure", "feax/mechanics/orientation.py:linear_closure", "feax/mechanics/orientation.py:hybrid_closure", "feax/mechanics/orientation.py:build_a4_2d", "feax/mechanics/orientation.py:principal_direction"]}
{"id": "C70", "title": "Orientation-averaged stiffness: lamina limit, average over the fibres, objectivity, positive definiteness", "statement": "For perfect alignment the 2-D and 3-D builders return the lamina: every strain's stress inverts the engineering compliance given by E1, E2, G12, nu12 (and nu23). For every fibre distribution the result is the weighted average of the lamina turned into each fibre direction, whatever orthonormal frame completes the direction; the builders commute with every orthogonal change of axes; the result has the minor and major symmetries. For thermodynamically admissible moduli the strain energy is positive for every distribution and every non-zero strain, and in 2-D also for every design of build_a4_2d with trace in (0, 1] and Schur coefficient in the unit disk. With fibre content tau the result is tau times the full stiffness plus (1 - tau) times the stiffness of the empty state, which is positive definite.", "quantifier": "every finite fibre distribution, every strain, every orthogonal matrix and every set of moduli (positive definiteness: E1, E2, G12 > 0, nu12^2 E2 < E1, in 3-D nu23 > -1 and 2 nu12^2 E2 < E1 (1 - nu23)), over the real numbers", "why_tests_cant": "Ranges over all distributions, strains and moduli; tests check single states.", "anchors": ["feax/mechanics/orientation.py:orientation_averaged_stiffness", "feax/mechanics/orientation.py:orientation_averaged_stiffness_3d"]}
{"id": "C71", "title": "Cohesive potentials: fracture energy, critical traction, secant unloading", "statement": "For every fracture energy Gamma > 0 and critical traction sigma_c > 0 the exponential potential on the loading branch is zero at zero opening, strictly increasing, below Gamma and arbitrarily close to it; its derivative (the traction) is between 0 and sigma_c and equals sigma_c exactly at delta_c = Gamma/(e sigma_c). Below the historical maximum the energy is the documented secant law and lies between zero and the energy at the maximum. The bilinear potential has the corresponding properties when sigma_c <= 2 Gamma. (Not true of the code: for sigma_c > 2 Gamma the bilinear energy exceeds Gamma and drops back at opening 1; unloading starts with a traction jump and dissipates nothing.)", "quantifier": "all Gamma, sigma_c > 0, all openings >= 0 and all historical maxima; over the real numbers", "why_tests_cant": "Monotonicity, the supremum Gamma and the traction peak are statements about a continuum of openings and materials.", "anchors": ["feax/mechanics/cohesive.py:exponential_potential", "feax/mechanics/cohesive.py:bilinear_potential"]}
{"id": "C72", "title": "Cohesive interface: integration weights, effective opening, interface energy", "statement": "The trapezoidal weights reproduce the trapezoidal rule, sum to the length of the line, integrate affine functions exactly and are non-negative for sorted points. The lumped weights give every listed node a quarter of each adjacent quad's area, are non-negative and sum to the total area when all quad nodes are listed; the area of a planar quad is the shoelace formula. The constructor accepts exactly the normals of shape (n, vec). The effective opening is sqrt(<dn>^2 + beta^2 dt^2 + 1e-30) of the reported components, unchanged by rigid translation and by exchanging the sides; with unit normals the components decompose the jump orthogonally; compression is reported as 1e-15; beta = 0 is pure mode I. The energy is the weighted sum of the potential at exactly these openings; with the exponential law it lies between 0 and Gamma times the area.", "quantifier": "all point lists, quads, interfaces, displacements, histories and potentials; over the real numbers", "why_tests_cant": "Sums over arbitrary meshes and invariance for every displacement cannot be enumerated.", "anchors": ["feax/mechanics/cohesive.py:compute_trapezoidal_weights", "feax/mechanics/cohesive.py:compute_lumped_area_weights", "feax/mechanics/cohesive.py:CohesiveInterface"]}
{"id": "C73", "title": "Compliance is the work of the surface loads, and the internal work at equilibrium", "statement": "For a single-variable problem whose loads are surface maps, the compliance of a solution is minus the virtual work that the surface terms of the assembled residual do on that solution. If the residual vanishes at the free DOFs and the solution at the constrained ones, it equals the internal (volume) virtual work of the solution. The static version equals the dynamic one with constant surface variables; it raises exactly when there are surfaces and the parameter list has another length. (Not true of the code: surfaces beyond the given surface variables, and loads not given as surface maps, count zero silently.)", "quantifier": "every commutative ring of scalars, every mesh, element, quadrature, surface map, boundary list, parameter and solution", "why_tests_cant": "The identity relates two independently written integration loops for every mesh and load.", "anchors": ["feax/gene/responses.py:create_compliance_fn", "feax/gene/responses.py:create_dynamic_compliance_fn"]}
{"id": "C74", "title": "Volume fraction of nodal, cell and quadrature densities", "statement": "When the number of nodes differs from the number of cells and from the number of quadrature values, the volume function returns the volume fraction of the density that the array stands for, and raises for every other size. The result lies between the bounds of the density (for non-negative weights and shape functions), is linear in the array, and equals c for the constant array c of any accepted size. (Not true of the code when the sizes coincide: a cell array is then read as a nodal one.)", "quantifier": "all meshes (as integration data), all density arrays; over the real numbers", "why_tests_cant": "Bounds and the size dispatch must hold for every mesh, including those where two sizes coincide.", "anchors": ["feax/gene/responses.py:create_volume_fn"]}
{"id": "C75", "title": "Third-medium contact: safe logarithm, energy minimum, frame indifference, regularization", "statement": "The extended logarithm is defined and differentiable everywhere with a continuous positive derivative, so it is strictly increasing. For non-negative moduli the undeformed state minimises the energy density among all deformation gradients, inverted ones included, in two and three dimensions, and rotating the deformed configuration leaves the energy unchanged. The regularization force of a cell is a symmetric bilinear form of displacement and test field, vanishes off the medium and on affine displacements, never releases energy, and stores none exactly when the Hessian of every component is spherical at every quadrature point. Cells are classified by the centroid of their corner nodes, the body keeps its moduli and the medium has them scaled. (Not true of the code: the regularization force is half the derivative of the documented regularization energy.)", "quantifier": "all deformation gradients, all non-negative moduli, all element data and displacements; over the real numbers", "why_tests_cant": "Robustness under inversion, positivity and frame indifference range over every deformation.", "anchors": ["feax/mechanics/tmc.py:classify_medium_cells", "feax/mechanics/tmc.py:ThirdMediumContact.get_energy_density", "feax/mechanics/tmc.py:ThirdMediumContact.get_extra_kernel", "feax/mechanics/tmc.py:ThirdMediumContact.create"]}
{"id": "C76", "title": "Field transfer to new points", "statement": "Transferring a nodal field from a TET4 mesh to new points reproduces every affine field exactly at each point that one of the tried elements contains; on a mesh of at most eight elements that is every point of the mesh. Values leave the range of the old field by at most 3e-8 of its width, never with clipping. Transfer to the mesh's own nodes is the identity when elements contain only the nodes they list. The call raises exactly for a mesh that is not TET4 or has a degenerate element. (Not true of the code: exactness at every point of a larger mesh, and staying within [0, 1] without clipping.)", "quantifier": "all TET4 meshes, fields, query points and answers of the nearest-neighbour trees; over the real numbers", "why_tests_cant": "Which element is found depends on the mesh geometry; exactness and bounds must hold for all.", "anchors": ["feax/gene/adaptive.py:interpolate_field"]}
{"id": "C77", "title": "Refinement field and element sizes", "statement": "The gradient refinement field has one value per node in [0, 1], some value is 1 unless all are below 1e-12, is zero for constant fields and does not depend on scale, sign or offset of the density. Requested element sizes lie between h_min and h_max, do not grow with the refinement value, and are h_max for values at most 0 and h_min for values at least 1 unless the field is constant. (Not true of the code: that the field is proportional to the gradient magnitude, shown only for elements with a symmetric edge matrix; that a constant field of 1 gives h_min.)", "quantifier": "all TET4 meshes, densities, refinement fields and sizes; over the real numbers", "why_tests_cant": "Must hold for every mesh and element orientation.", "anchors": ["feax/gene/adaptive.py:gradient_refinement", "feax/gene/adaptive.py:_make_size_callback"]}
{"id": "C78", "title": "Adaptive box meshes: extraction, periodic faces, node-count tuning", "statement": "Reading the generated mesh back gives every cell the coordinates of its node tags, indices in range, no unused and no duplicated node, if gmsh numbers the nodes 1, 2, ... in listing order; it raises exactly when there are no 4-node tetrahedra. For a box larger than the tolerance, whatever the order of the faces, each axis gets exactly one periodic pair, high face slave of low face by the translation along the axis. The tuned mesh is the last generated one, all attempts scale both sizes by one factor, there are at most max_retries + 1 attempts, and stopping earlier means the count is within 30 per cent of the target. (Not true of the code: at most max_retries attempts; returning the attempt closest to the target; periodicity of boxes smaller than 1e-6; other node numberings.)", "quantifier": "all gmsh answers (node lists, element blocks, bounding boxes, node counts); over the real numbers", "why_tests_cant": "gmsh's answers vary with geometry and version; the loop depends on every earlier answer.", "anchors": ["feax/gene/adaptive.py:_extract_tet4", "feax/gene/adaptive.py:_identify_periodic_face_pairs", "feax/gene/adaptive.py:adaptive_box_mesh"]}
{"id": "C79", "title": "Boolean combinations of signed distance fields and the sampling grid", "statement": "The field of any nesting of unions, intersections and differences is negative exactly strictly inside the combined solid and positive exactly strictly outside; combining is commutative, associative, distributive and obeys De Morgan as fields; combinations of distance bounds are distance bounds; batch evaluation equals pointwise evaluation; the default bounds contain the solid. The volume handed to marching cubes holds at every index the field at the world position later assigned to that index, and its first and last planes are the bounds. (Not true of the code: that the bounds of an intersection are a box, see C79_disjoint_refuted.)", "quantifier": "all expression trees over arbitrary primitives, points, bounds and resolutions; over the real numbers", "why_tests_cant": "Must hold for every nesting of operators and every grid resolution.", "anchors": ["feax/gene/sdf.py:SDF", "feax/gene/sdf.py:_Union", "feax/gene/sdf.py:_Intersection", "feax/gene/sdf.py:_Difference", "feax/gene/sdf.py:SDF.to_mesh"]}
{"id": "C80", "title": "Densities as signed distance fields", "statement": "The field of a density is threshold minus the density, where the density is interpolated in a candidate element containing the point, else at the clamped coordinates of the closest candidate if that is closer than 1/2 in reference coordinates, else it is 0 beyond the bounding box (if closing the boundary) and the nearest node's value otherwise. On linear simplices batch evaluation equals pointwise evaluation, affine densities are reproduced exactly in contained points, and densities leave the range of the nodal values and 0 by at most (dim+1) 1e-6 of its width. The node order used is right for HEX8, TET4, QUAD4 and TRI3. (Not true of the code: closing the boundary makes everything outside the mesh void; quadratic elements are interpolated right.)", "quantifier": "all meshes, densities, points and answers of the search trees; over the real numbers", "why_tests_cant": "Which branch is taken depends on the mesh and the query; all must be covered.", "anchors": ["feax/gene/sdf.py:DensityField"]}
{"id": "C81", "title": "Pressure-vessel mesh: numbering, geometry, zones, surfaces and constraints", "statement": "For every sensible vessel (positive lengths, opening smaller than the radius, at least three columns, one cylinder row, one dome row and one fill layer, axis z) the generator succeeds with the Jacobian check on. Node ids number the grid exactly once each; layer k lies on the cylinder of radius a + d_k below the dome and on the sphere of that radius above, with no node inside the polar opening and the rim radius equal to it. Cells come in row-major order with eight distinct nodes; zone labels give the true wall thicknesses; the dome mask marks exactly the rows above the cylinder. The surface location functions accept exactly the nodes of the outer and the inner layer for tolerances up to the shell thickness. The constrained degrees of freedom remove every rigid motion and the free ones are exactly the others, sorted. (Not true of the code: the thickness of the outer shell without fill elements; that the pinned nodes are diametrically opposite.)", "quantifier": "all vessel dimensions and all numbers of columns, rows and layers; over the real numbers", "why_tests_cant": "Must hold for every discretization; orientation and clearance depend on continuous dimensions.", "anchors": ["feax/mechanics/copv.py:DoubleWallCopvGeometry", "feax/mechanics/copv.py:build_meridian", "feax/mechanics/copv.py:create_double_wall_copv_mesh", "feax/mechanics/copv.py:DoubleWallCopvMesh"]}
{"id": "C82", "title": "Winding directions of the pressure vessel", "statement": "The wall triad of a cell is a right-handed orthonormal frame; on the generated mesh the hoop direction is exactly horizontal and tangential at the cell's mid-angle, the normal lies in the meridian plane pointing outwards, and on the cylinder the three are exactly axial, tangential and radial. Ply k is wound in the wall plane at its angle from the meridian: sign times alpha for helical plies with r sin alpha = r_p (Clairaut) where r >= r_p, 90 degrees for hoop plies, plus or minus alpha alternately for hoop plies on the dome when these are dropped. Its axes are a rotation of the triad about the normal. The re-oriented dome plies are balanced exactly for an even number of them. Fibre directions are unit on shells and zero on fill. (Not true of the code: that an unknown ply kind is rejected.)", "quantifier": "all cells, vessels, layups and radii; over the real numbers", "why_tests_cant": "Orientation must hold for every cell of every mesh and every layup.", "anchors": ["feax/mechanics/copv.py:_cell_triad", "feax/mechanics/copv.py:_cell_ply_frames", "feax/mechanics/copv.py:cell_fiber_directions", "feax/mechanics/copv.py:cell_winding_angle_deg"]}
{"id": "C83", "title": "Ply stiffness builders and rotations in three dimensions", "statement": "Voigt and tensor form of a stiffness are inverse to each other and act alike on engineering strains. The isotropic builder gives lambda tr(e) I + 2 mu e, inverts Hooke's law, is unchanged by every orthogonal change of axes and positive for admissible constants. The orthotropic builder inverts the engineering strain relations on both sides, has the full symmetries and positive strain energy for stable constants; with isotropic constants it equals the isotropic builder. The transversely isotropic stiffness and expansion do not change under any rotation about the fibre. The axis-angle matrix is a proper rotation, right-handed, fixes the axis and adds angles. Rotating tensors composes and inverts like the matrices, keeps symmetries, commutes with applying the law (rotated strain in, rotated stress out) and keeps energies. In a wound shell cell each ply has the given stiffness and expansion in its own axes (fibre, transverse, normal), fill cells the fill values.", "quantifier": "all moduli, tensors, matrices, axes, angles, strains, cells and layups; over the real numbers", "why_tests_cant": "Algebraic identities over continuous families of tensors, rotations and moduli.", "anchors": ["feax/mechanics/layered_solid_element.py:voigt_to_tensor", "feax/mechanics/layered_solid_element.py:isotropic_stiffness_3d", "feax/mechanics/layered_solid_element.py:orthotropic_stiffness_3d", "feax/mechanics/layered_solid_element.py:transverse_isotropic_stiffness_3d", "feax/mechanics/layered_solid_element.py:rotation_matrix_axis", "feax/mechanics/layered_solid_element.py:rotate_stiffness_3d", "feax/mechanics/layered_solid_element.py:rotate_cte_3d", "feax/mechanics/copv.py:create_winding_ply_stiffness", "feax/mechanics/copv.py:create_winding_cte"]}
{"id": "C84", "title": "Layered solid element: exact ply-by-ply quadrature, equilibrium, patch test, thermal load, buckling term", "statement": "The through-thickness quadrature puts n_thick * n_inplane^2 points in every ply, all inside their ply, with positive weights that sum to the ply's share of the thickness, and integrates functions that are polynomial in each ply exactly, so all thickness moments of the stiffness up to the degree of the rule are exact. The factory gives each point the stiffness of its own ply turned by its angle, and rejects mismatched lengths. The element's forces do the work of the stresses through the strains; they are symmetric, non-negative in energy, have no resultant and no moment; affine displacements give their exact strain, rigid motions no force; free thermal expansion is stress-free; the thermal strain adds a load independent of the displacement. A box-shaped cell under uniform strain stores volume times the thickness-weighted ply energies. The geometric element is the derivative of the second-order work of the prestress, symmetric, blind to translations and non-negative for tensile prestress. The element with per-cell plies gives point n of cell c the stiffness (and, with thermal coupling, the expansion) of that cell's ply at the point, refuses arrays of another shape and, when every cell has the same turned plies, is the flat laminate's element.", "quantifier": "all layups, thicknesses, Gauss rules meeting their contract, cells, node counts, displacements, stiffnesses and temperature fields; over the real numbers", "why_tests_cant": "Exactness and equilibrium must hold for every stacking and displacement.", "anchors": ["feax/mechanics/layered_solid_element.py:layered_reference_quadrature", "feax/mechanics/layered_solid_element.py:create_layered_solid", "feax/mechanics/layered_solid_element.py:LayeredSolid", "feax/mechanics/layered_solid_element.py:OrientedLayeredSolid", "feax/mechanics/layered_solid_element.py:GeometricStiffnessSolid", "feax/mechanics/layered_solid_element.py:layered_quad_stress"]}
{"id": "C85", "title": "Shell laminate: plane-stress stiffness, in-plane rotation, through-thickness integrals", "statement": "The isotropic in-plane stiffness is what the three-dimensional isotropic law becomes at zero normal stress, and does not depend on the axes. The orthotropic one inverts the plane-stress engineering relations on both sides, is positive for stable constants and equals the isotropic one for isotropic constants. In-plane rotations of stiffness, shear stiffness and expansion add their angles, keep symmetries and energies and turn stress with strain. The layer interfaces run from minus to plus half the thickness, one ply apart. For every lay-up, strain, curvature and linear temperature profile the resultants built from laminate stiffness and thermal loads are the through-thickness integrals of ply stress and of height times ply stress. Plies that store no negative energy make a laminate that stores none, with full symmetries. Equal plies make the homogeneous plate however split. A lay-up that reads the same from both faces has no coupling and no thermal moment at uniform temperature. Plies that expand alike expand freely without forces. Inputs of unequal lengths are refused.", "quantifier": "all moduli, angles, thickness lists, per-ply or shared properties, strains, curvatures and temperatures; over the real numbers", "why_tests_cant": "Integral identities over continuous families of lay-ups and strains.", "anchors": ["feax/mechanics/shell.py:isotropic_in_plane_stiffness", "feax/mechanics/shell.py:orthotropic_in_plane_stiffness", "feax/mechanics/shell.py:plate_stiffness", "feax/mechanics/shell.py:z_layer_coordinates", "feax/mechanics/shell.py:rotate_in_plane_stiffness", "feax/mechanics/shell.py:rotate_shear_stiffness", "feax/mechanics/shell.py:laminate_stiffness", "feax/mechanics/shell.py:thermal_expansion_from_orientation", "feax/mechanics/shell.py:rotate_thermal_expansion", "feax/mechanics/shell.py:laminate_thermal_loads"]}
{"id": "C86", "title": "Mindlin plate weak form: derivative of the plate energy, self-adjoint, blind to rigid motion", "statement": "For every laminate with the usual symmetries, coupling and thermal loads present or absent, and for both strain measures, the weak form paired with any test displacement and rotation is the derivative of the stored plate energy in that direction. The linear plate is self-adjoint, its work is twice the energy, non-negative, and with definite stiffness zero only for a state without strain whose fibre follows the slope. Rigid translations, in-plane rotations and tilts leave every entry zero; under von Karman strains the tilt does so with its second-order in-plane shortening. Where the deflection gradient is zero both measures agree, and an absent coupling or load acts as zero. Any other strain measure is refused.", "quantifier": "all stiffnesses, states and directions at a quadrature point; over the real numbers", "why_tests_cant": "A derivative identity over all states and directions.", "anchors": ["feax/mechanics/shell.py:mindlin_strains", "feax/mechanics/shell.py:mindlin_resultants", "feax/mechanics/shell.py:mindlin_weak_form", "feax/mechanics/shell.py:make_mindlin_plate"]}
{"id": "C87", "title": "Profiling tools report what was run", "statement": "The primitive table of a program counts every operation exactly as often as it occurs, names each once, and the top-n list is a largest selection in descending order. A timed block runs its body once, passes its result or exception on, and records exactly one time, which covers the body and is not negative. Timing a function calls it warm-up plus n times, returns the value of the last call and keeps one time per measured run; with no call at all it raises. The profiled Newton run returns the first state whose residual is small, or the state after the last allowed update; it says converged exactly when one of the first max_iter states had a small residual, and records the residual norms of the states it tested. A number shown with a unit prefix times the prefix is the number.", "quantifier": "all operation lists, bodies, exceptions, clocks, functions with state, run counts, Newton steps, tolerances and numbers", "why_tests_cant": "Counts and decisions must be right for every program, clock reading and iteration history.", "anchors": ["feax/profiler.py:_count_primitives", "feax/profiler.py:_top_n", "feax/profiler.py:profile", "feax/profiler.py:time_fn", "feax/profiler.py:profile_solver_py", "feax/profiler.py:_si"]}
{"id": "C88", "title": "Linear buckling factors, modes and their sensitivities", "statement": "The generalized symmetric eigensolver returns B-orthonormal eigenvectors of the symmetrised pencil in ascending order and misses no eigenvalue. The dense buckling solver returns factors above the threshold in ascending order, each with a mode that vanishes on constrained degrees of freedom, satisfies (K + lambda Kg) phi = 0 on the free ones and has unit stiffness energy; any other factor above the threshold is not below the returned ones, and is left out only when the requested number is reached. The differentiable solver scales modes to unit stiffness energy and pads missing ones with infinite factors and zero modes; when all requested modes are found, its vector-Jacobian product is the exact derivative of the factors along every smooth change of the stored matrix values. The sparse solver, given the k pairs of largest 1/|lambda|, returns genuine ascending factors with no smaller positive factor left out, refuses fewer than three free degrees of freedom, and only returns when its residual check passes. The request it makes of ARPACK covers the modes asked for with four to spare, and is one ARPACK accepts, exactly when there are at least seven more free degrees of freedom than modes.", "quantifier": "all matrices, free sets, numbers of modes, tolerances, cotangents, smooth paths and lists of slots with duplicates; over the real numbers", "why_tests_cant": "Completeness of a spectrum and exactness of derivatives range over all matrices and directions.", "anchors": ["feax/solvers/eigen.py:generalized_eigh", "feax/solvers/eigen.py:_dense_buckling", "feax/solvers/eigen.py:_sparse_buckling", "feax/solvers/eigen.py:_restrict_csr", "feax/solvers/eigen.py:_outer_cotangent"]}
{"id": "C89", "title": "Faces, surface weights, points and derivatives of the finite element", "statement": "A location function selects exactly the (cell, local face) pairs all of whose corner nodes satisfy it, in order and once each, from every cell that has the face; a function with a wrong number of arguments raises. On cells with positive Jacobian the weight of a face point is the rule's weight times the area (length) element of the mapped face, and on affine cells the weights of a face add up to its area (length); inverted cells get the opposite sign. Interpolation of affine fields to quadrature points, and their gradients, are exact in cells and on faces; non-negative shape functions keep bounds. Second derivatives are symmetric, read from the right tabulation slots, and exact for quadratic fields on affine cells; on other cells they are not, even for linear fields. The shape functions of each of the nine element types, in mesh order, add up to one and reproduce the point everywhere in the cell, and their derivatives add up to zero and reproduce the direction; those of the first-degree types are not negative in the cell, those of a six-node triangle can be.", "quantifier": "all meshes, location functions, cells, shape tables with partition of unity, quadrature points, affine and quadratic fields in two and three dimensions; over the real numbers", "why_tests_cant": "Exactness ranges over all cell geometries and fields; the selection over all meshes and predicates.", "anchors": ["feax/fe.py:FiniteElement.get_boundary_conditions_inds", "feax/fe.py:FiniteElement.get_face_shape_grads", "feax/fe.py:FiniteElement.get_physical_surface_quad_points", "feax/fe.py:FiniteElement.sol_to_grad", "feax/fe.py:FiniteElement._compute_shape_hessians", "feax/basis.py:get_shape_hessians_ref", "feax/basis.py:get_face_shape_vals_and_grads"]}
{"id": "C90", "title": "Near-null space of algebraic multigrid", "statement": "For a single field with as many components as dimensions (2 or 3) the default near-null space has 3 or 6 columns; each is an infinitesimal rigid motion on the free degrees of freedom and zero on constrained ones, strains no cell, and every infinitesimal rigid motion is a combination of them. Without boundary conditions translations are orthogonal to all other columns and the columns are independent unless the nodes lie on a line. Other problems get the constants. Presets are case-insensitive; rigid_body is refused where there are no modes and unknown names are refused. The adaptive search uses the number asked for or the number of rigid body modes. The outer method is the one asked for; auto means GMRES when rebuilding, and otherwise conjugate gradients exactly when the sample looks positive definite.", "quantifier": "all problems, node sets, constrained rows, cells and shape tables, preset strings and arrays, options; over the real numbers", "why_tests_cant": "Strain-freeness and completeness range over all meshes and motions.", "anchors": ["feax/solvers/amg.py:rigid_body_modes", "feax/solvers/amg.py:_default_num_candidates", "feax/solvers/amg.py:_resolve_near_nullspace", "feax/solvers/amg.py:build_amg_preconditioner", "feax/solvers/amg.py:make_self_preconditioned_amg_solve", "feax/solvers/amg.py:amg_to_krylov_options"]}
{"id": "C91", "title": "Result files: time series and single files", "statement": "For every history of entering the time-series writer, writing frames (accepted or refused) and leaving it, with or without an exception: on leaving, the index lists exactly the frames accepted since the last entry, in order, with distinct names, and every field points to an array in the data file holding the (padded) field with matching type and dimensions, provided every accepted field has a supported number of components; otherwise the index stays as it was and an error is raised. A frame is accepted exactly when the writer is open, no earlier frame of the session was refused, its field names are those of the first frame, no name repeats and every field has the right size; so one refused frame blocks the rest of the session. A crash before leaving never changes the index. Single files are written exactly when some list is given, the cell is known and sizes match, with the data of every field; the guessed cell label is right except for quadratic quadrilaterals and quadrilaterals in space.", "quantifier": "all histories of entries, writes and exits, all fields and shapes, numbers of points and cells, crash points", "why_tests_cant": "Consistency of index and data file must hold after every history, including refused writes and crashes.", "anchors": ["feax/utils.py:XDMFWriter", "feax/utils.py:XDMFWriter.write_iteration", "feax/utils.py:_normalize_field", "feax/utils.py:save_sol", "feax/mesh.py:get_meshio_cell_type"]}
{"id": "C92", "title": "Matrix-free multigrid solve on active cells", "statement": "The element stiffness of the compact multigrid solver equals the exact integral over the unit cell of the isotropic elastic work of the trilinear fields (so its 2x2x2 quadrature makes no error), is symmetric, never gives negative work for admissible moduli, and gives zero work exactly for rigid motions. The matrix-free operator equals the assembled stiffness on free dofs and zero on fixed ones. For every design, active set, supports, load, tolerance, cap and cycle settings, the solver returns a displacement that is zero on fixed dofs, and if it stopped before the iteration cap every free equilibrium equation holds to the tolerance relative to the largest load; this needs nothing of the preconditioner or the coarsest solver. The result does not depend on the padding bucket. One colour of a smoothing sweep leaves the other colours alone and makes every equation of a free node of that colour hold exactly; restriction is the transpose of prolongation. The direct and the Krylov coarsest solver solve the same equations. At an exact solution the reported compliance is the work of the load, and the gradient returned to the design is the derivative of any linear functional of the displacement along any design direction; for the compliance it is the analytic sensitivity. Without options or with direct options the coarsest solver needs cuDSS and is refused without it; Krylov options never are.", "quantifier": "all moduli and displacement fields, all grids, active sets, supports, designs, loads, tolerances, iteration caps, sweep counts, levels and bucket sizes, every coarsest solver", "why_tests_cant": "Correctness of an iterative solve for every design and every preconditioner, exactness of a quadrature, and a gradient along every direction cannot be sampled.", "anchors": ["feax/solvers/cmg.py:make_KE_3d", "feax/solvers/cmg.py:NarrowBandCMG", "feax/solvers/cmg.py:NarrowBandCMG._solve_j", "feax/solvers/cmg.py:NarrowBandCMG.create_solver", "feax/solvers/cmg.py:NarrowBandCMG.compliance_and_dc"]}
{"id": "C93", "title": "Helmholtz density filter", "statement": "On every mesh with positive integration weights and shape functions that sum to one, the Helmholtz filter returns the discrete solution of rho~ - r^2 lap rho~ = rho (in the space given by the optional prolongation): the weak equation holds for every test field up to the linear solver's leftover residual. Hence it keeps the volume exactly up to the sum of that residual. With an exact solve and a quadrature that sees every nodal field, the result is unique, linear in the density, self-adjoint for the mesh integral, never increases the mean square (even with twice the gradient energy added), keeps constants, and with zero radius and no prolongation returns the density. It does not keep densities within [0, 1]. The element type is guessed from the number of coordinates and nodes per cell and is right only for TRI3, QUAD4, TET4 and HEX8. The kernel sees the interpolated density when the mesh has different numbers of nodes and cells.", "quantifier": "all meshes, element tables, densities, radii, prolongation matrices, solver residuals", "why_tests_cant": "Volume preservation, linearity and contraction are identities over every mesh and density.", "anchors": ["feax/gene/filters.py:HelmholtzFilterProblem", "feax/gene/filters.py:create_helmholtz_filter", "feax/gene/filters.py:helmholtz_filter"]}
{"id": "C94", "title": "Multi-node launch gives every process its rank", "statement": "For every cluster file with a non-empty, blank-free coordinator, plain container names and a host for every node, when all processes can be started: the launcher starts one worker for each node in file order and then the coordinator; the environment that reaches each of them makes initialize() join the same coordinator address with the same process count 1 + nodes, and the ids are 1..n for the workers and 0 for the coordinator, each exactly once; the coordinator gets the script arguments, keeps the caller's other environment variables, and the launcher waits for each worker exactly once after the coordinator ends and exits with the coordinator's code. If starting worker k+1 fails, exactly workers 1..k have been started, the coordinator is not, and nobody waits. Without a coordinator address initialize() does nothing; with one but without the other variables it raises; finalize() never raises. The configured port never reaches the runtime (always 1234), script arguments never reach a worker, and a blank in a container name changes the remote command.", "quantifier": "all cluster files, scripts, arguments, environments and points at which starting a process fails", "why_tests_cant": "Ranks must be a permutation for every cluster size, and the state left behind matters for every crash point; tests run no cluster.", "anchors": ["feax/distributed/__init__.py:_launch", "feax/distributed/__init__.py:initialize", "feax/distributed/__init__.py:finalize"]}
{"id": "C95", "title": "Newton solves with an extra residual term", "statement": "For every problem with full storage and every extra residual function: the residual the extra-term Newton loops drive to zero vanishes exactly when prescribed values are attained and the sum of both residuals is zero in every free row. The assembled tangent (merged pattern) and the matrix-free tangent product are both the eliminated tangent of the sum, and the assembled transpose and the matrix-free adjoint product its transpose, for both elimination modes, also when the extra term couples to constrained DOFs. One full step from an admissible guess solves a problem with affine terms. The backward pass, with a direct or a Krylov adjoint, returns a multiplier of the transposed row-eliminated system of the sum, so that its cotangents are the derivative of every linear functional along every first-order response, for parameters and prescribed values, symmetric tangent or not. With triangular storage the matrix-free product is not the tangent and nothing rejects it.", "quantifier": "all problems, boundary conditions, extra residuals with their tangents, elimination modes, linear solvers that solve the call in question, adjoint options", "why_tests_cant": "Exactness of tangent and adjoint is an identity over every coupling pattern, in particular couplings through constrained DOFs.", "anchors": ["feax/solvers/newton.py:_create_assembled_extra_newton_solver", "feax/solvers/newton.py:_create_differentiable_newton_solver", "feax/solvers/newton.py:create_newton_solver"]}
{"id": "C96", "title": "When the rebuilding multigrid Newton solve refreshes its preconditioner", "statement": "With any rebuild policy the run steps from each iterate to the first decreasing trial along the direction computed there, reports the norm of its result, computes at most max_iter directions and stops only at max_iter, at a tolerance, or when no trial decreases the norm. With rebuild_every = k other than 0 (k < 1 counts as 1) the direction of pass j uses the hierarchy of the tangent at pass k*(j/k), so none is older than k-1 passes, and ceil(passes/k) hierarchies are built. With rebuild_every = None the first pass builds one; later a hierarchy is kept only if its linear residual does not exceed lag_tol and rebuilt only if it does, so if fresh solves meet lag_tol and no linear residual is NaN every direction used meets lag_tol; each rebuild costs exactly one extra solve. If the linear solver's answer does not depend on the preconditioner all policies return the same result. A lagged solve that breaks down with NaN is not repeated with a fresh hierarchy: the run may stop unconverged where it need not.", "quantifier": "all residuals, tangents, hierarchy constructions, linear solvers, linear residuals (IEEE values), policies, tolerances, options, initial guesses", "why_tests_cant": "The policy is a rule over the whole history of a run: which tangent a preconditioner belongs to at pass j depends on every earlier pass and on the linear residuals found there.", "anchors": ["feax/solvers/newton.py:_create_amg_rebuild_newton_solver", "feax/solvers/options.py:AMGSolverOptions"]}
{"id": "C97", "title": "Cylinder solids, tetrahedron orientation check and face counting", "statement": "For every centre, non-zero axis, height and radius the solid meshed by cylinder_mesh is a right circular cylinder of that base point, height and radius; its direction is the requested one, exactly unless that lies within 2e-8 of the z axis (then within 2e-8), except for axes pointing straight down (within 1e-10), where the cylinder points up instead. check_mesh_TET4 returns six times the signed volume: 1 on the unit tetrahedron, blind to translations, multiplied by the determinant under linear maps, negated by exchanging nodes, additive under splitting by a point, zero exactly on flat elements. count_selected_faces counts the (cell, face) pairs whose nodes all satisfy the function, which is the number of surface elements a problem creates for it; a face shared by two cells is counted twice, and the function sees nodes, not face centroids.", "quantifier": "all centres, axes, heights, radii, points; all tetrahedra, translations, linear maps; all meshes, face tables and location functions", "why_tests_cant": "The rotation must align every axis on the sphere, including the degenerate ones; the orientation check is a set of algebraic laws over all points.", "anchors": ["feax/mesh.py:cylinder_mesh", "feax/mesh.py:check_mesh_TET4", "feax/mesh.py:Mesh.count_selected_faces"]}
{"id": "C98", "title": "A checked linear solve returns a small residual or NaN; direct closures answer for the right pattern", "statement": "With check_convergence switched on, a linear solve returns either NaN in every component or a state whose residual norm is below convergence_threshold times (the residual norm at the initial guess + 1e-12), whatever the linear solver did; matrices stored by one triangle are judged by the symmetric operator they stand for, and a NaN in the right-hand side or in a component that a stored entry multiplies is never accepted. If the operator is coercive with constant m, an accepted solution is within threshold (|b|+1e-12)/m of the exact one; if |b| >= 1e-12 its relative residual is below twice the threshold, while for |b| below threshold times 1e-12 zero is always accepted. The Jacobi preconditioner divides by the assembled diagonal plus the shift, independently of storage order, duplicates and padding, and is positive definite when the diagonal is positive. In every history of calls, a direct closure, pre-warmed or not, answers a call on the pattern of its first matrix as a solver built for that call's matrix; a call with another pattern is silently answered for the first one.", "quantifier": "all matrix sizes, sparse matrices with duplicates and padding, storage views, right-hand sides and solver outputs (finite or NaN), thresholds, shifts, and all histories of calls of a direct closure", "why_tests_cant": "tests check one converged and one failed solve; the accepted set, NaN propagation, the bound on the error and the behaviour over call histories hold for every input", "anchors": ["feax/solvers/common.py:check_convergence", "feax/solvers/common.py:_matvec_with_matrix_view", "feax/solvers/common.py:_extract_sparse_diagonal", "feax/solvers/common.py:create_jacobi_preconditioner", "feax/solvers/common.py:create_direct_solve_fn", "feax/solvers/common.py:prewarm_direct_solvers", "feax/solvers/linear.py:linear_solve"]}
{"id": "C99", "title": "The GPU buckling solver: Arnoldi basis, Ritz pairs, outputs and captured structure", "statement": "For every stiffness pair, start vector that is not zero and Krylov size, the GPU buckling solver's basis is orthonormal until the process breaks down and zero afterwards, and satisfies the Arnoldi relation up to 1e-30; every eigenpair of the small matrix gives a vector whose eigen-residual is at most the last subdiagonal entry times the last coefficient, and after a breakdown every pair with mu <> 0 solves (K + lambda K_g) x = 0 exactly with a non-zero x, so the zero columns never produce false modes. A call that does not raise returns num_modes entries: ascending finite factors above 1e-12, each the inverse of a Ritz value with a mode along the Ritz vector of K-norm e/(e+1e-300), then infinity with zero modes; with a tolerance there is at least one factor and the fundamental residual is at most the tolerance. The reduced matrices gathered through the captured slots are the free rows and columns, symmetrised when the pattern is structurally symmetric (mixed up otherwise). The host backends answer every call of a history for the right pattern if all eager calls share it; an eager call with another pattern changes what an already compiled function computes.", "quantifier": "all matrices, free sets, start vectors, Krylov sizes, mode counts and tolerances; all sparsity patterns; all histories of eager and compiled calls", "why_tests_cant": "needs the orthogonality and residual identities of the Arnoldi process for all operators and the behaviour at breakdown, which tests on one structure do not reach", "anchors": ["feax/solvers/eigen.py:_create_cudss_bf", "feax/solvers/eigen.py:create_linear_buckling_solver"]}
{"id": "C100", "title": "Gradients through a chain of implicit time steps, with and without pseudo_time", "statement": "For every number of implicit time steps, every cotangent of the last state and every direction, the reverse pass through the steps (one adjoint solve per step, no cotangent for the warm start) gives exactly the change of the last state along the parameters and the initial state. With pseudo_time only the last step's adjoint solve contributes, whatever the number of steps; the result is the gradient whenever no step's residual depends on the previous state (load stepping), and is wrong for transient problems: integrating u' = theta over N steps it reports 1 instead of N.", "quantifier": "all numbers of steps, unknowns and parameters, all residual derivatives with solvable adjoint systems, all cotangents and directions", "why_tests_cant": "tests compare one short chain with finite differences; exactness for every chain length, and the exact set of problems where detaching the state is harmless, need a proof", "anchors": ["feax/solvers/time_solver.py:ImplicitPipeline.step", "feax/solvers/newton.py:f_bwd", "feax/solvers/linear.py:f_bwd"]}
{"id": "C101", "title": "Near-null-space of the reduced (periodic) multigrid solve", "statement": "Whatever the near_nullspace option, the reduced multigrid is built with modes that have one row per reduced unknown: the default and 'rigid_body' (any capitalisation) use the rigid-body modes of the full mesh pulled back to the reduced unknowns (or the name 'constant' if there are none), other names pass through, arrays with the full number of rows are pulled back, arrays with the reduced number of rows are used as they are, all others are refused. For every master-slave prolongation the pull-back is the average over each periodic class: it reproduces every periodic mode exactly and is otherwise the closest periodic mode in the least-squares sense. Constant modes survive every prolongation with positive columns. Exactness fails for interpolating prolongations, and for rotations, which are not periodic.", "quantifier": "all prolongations, classifications of the unknowns, mode matrices and option values", "why_tests_cant": "tests check one cell and iteration counts; that the pull-back is exact on every periodic mode and optimal on every other needs a proof over all classes", "anchors": ["feax/solvers/reduced.py:_project_reduced_nullspace", "feax/solvers/reduced.py:_reduced_amg_options"]}
{"id": "C102", "title": "Refinement hands Gmsh exactly the given mesh and returns exactly what Gmsh holds", "statement": "refine_mesh refuses negative levels, unsupported element types, points that are neither 2-D nor 3-D and cells with the wrong number of nodes; level 0 returns the mesh itself. For every mesh with valid indices the store handed to Gmsh has the same cells with the same coordinates; for every number of levels and every behaviour of Gmsh's refinement (any node order, any distinct tags) the returned mesh has the cells of the requested type that Gmsh holds, with the same coordinates. So every shape property kept by one refinement holds of every returned cell, and a k-fold split per step gives k^levels times as many cells. Ten-node tetrahedra are passed in feax's node order, which is not Gmsh's.", "quantifier": "all meshes, element types, numbers of levels and refinement behaviours of the external mesher", "why_tests_cant": "tests run one mesh through one Gmsh version; independence from Gmsh's node order and tags, at every level, is a statement about all of them", "anchors": ["feax/mesh.py:refine_mesh", "feax/mesh.py:_ELE_INFO", "feax/mesh.py:_GMSH_ELE_TYPE_ID"]}
{"id": "C103", "title": "Number and size of the elements of a structured box", "statement": "For every side length and mesh size, a structured box has at least one element along each side; if the side is at least the mesh size, the elements are at least as long as the mesh size, less than twice as long, and their number is the largest with no element shorter than the mesh size; a side that is k mesh sizes long gets exactly k elements. All four edges of a direction get the same number of points, the one computed for that direction, for every box, origin and padding of the reported bounding boxes. In binary64 a multiple can lose an element (0.3 / 0.1), and the mesh size is not an upper bound on the element length.", "quantifier": "all positive side lengths and mesh sizes, all twelve edges, origins and bounding-box paddings", "why_tests_cant": "tests look at a few sizes; the bounds and the agreement of parallel edges must hold for all real sizes", "anchors": ["feax/mesh.py:box_mesh"]}
{"id": "C104", "title": "Gmsh sessions, options and temporary files at every crash point", "statement": "However box_mesh, sphere_mesh, cylinder_mesh, refine_mesh, adaptive_mesh and adaptive_box_mesh end, and whichever call inside raises, the Gmsh session is closed (even one left open earlier) or was never reached, and no file is created or removed. Over every sequence of such calls, each ending in any way, every mesh generation runs with exactly the options its own call asked for, and a call that returns has generated its mesh (once, or once per refinement level). extract_volume_mesh and SDF.to_volume_mesh restore session and files when they return and when they report that no surfaces were found; when anything else raises they leave the session open and the STL file behind, and the next mesh inherits their options.", "quantifier": "all parameters, all crash points, all sequences of calls and all behaviours of the geometry callback", "why_tests_cant": "tests run to completion; clean-up concerns every point at which an external call may raise, in every order of calls", "anchors": ["feax/mesh.py:box_mesh", "feax/mesh.py:sphere_mesh", "feax/mesh.py:cylinder_mesh", "feax/mesh.py:refine_mesh", "feax/gene/adaptive.py:adaptive_mesh", "feax/gene/adaptive.py:adaptive_box_mesh", "feax/gene/mesh_extraction.py:extract_volume_mesh", "feax/gene/sdf.py:SDF.to_volume_mesh"]}
{"id": "C105", "title": "Concurrent calls of the caching direct solvers", "statement": "Under every interleaving of any number of concurrent UMFPACK or CHOLMOD solves, a solve whose callback is only used by solves with the same matrix (in particular one that has its callback to itself) returns exactly what it returns alone: the solution for its own matrix and right-hand side, or the library's error for a matrix it cannot factorise. When all have finished, the cached state is one that later calls can rely on, and callbacks nobody used are untouched. No call blocks another: each finishes within nine steps of its own. Concurrent solves on one callback with different matrices can return each other's solution, fail a valid call because another's matrix is singular, or leave the cache such that a later valid solve fails.", "quantifier": "all numbers of calls, all matrices and right-hand sides, all interleavings at the granularity of single reads and writes of the shared state, all consistent initial states", "why_tests_cant": "a race shows only under particular schedules, which a test cannot enumerate or force", "anchors": ["feax/solvers/direct/umfpack.py:_factorize_and_solve_with_cache", "feax/solvers/direct/umfpack.py:_get_umfpack_host_callback", "feax/solvers/direct/cholmod.py:_factorize_and_solve_with_cache", "feax/solvers/direct/cholmod.py:_get_cholmod_host_callback"]}
{"id": "C106", "title": "What a problem is built from", "statement": "A Problem that is built has one variable per mesh, and the finite element of each variable is built from exactly that variable's mesh, component count, element type and quadrature order. Two variables share one finite element object exactly when they ask for the same one; none is built twice or in vain. All variables have the same number of quadrature points. Flattening a built problem and rebuilding it gives the same problem. The storage view may be named in any case and other names are refused. Several variables require a universal kernel or a weak form, and the warning names exactly the single-variable kernels that will be ignored; one variable never warns. With a list of meshes, component counts and element types must be lists as well: the default element type is refused.", "quantifier": "all argument values (single values and lists of any length), all finite element constructors, all subclasses' kernels", "why_tests_cant": "sharing, normalisation and the round trip concern every combination of argument shapes and repetitions", "anchors": ["feax/problem.py:Problem.__post_init__", "feax/problem.py:Problem._validate_multi_variable_setup", "feax/problem.py:Problem.tree_flatten", "feax/problem.py:Problem.tree_unflatten", "feax/problem.py:MatrixView"]}
{"id": "C107", "title": "Surface integrals act on the selected face", "statement": "For every supported element type, every face and every point of it, in mesh numbering: the shape functions of nodes off the face vanish, the others add up to one and reproduce the point; the face is the one whose corners the boundary selection tests. For the first-degree types the values at the corners are the face's own shape functions. Hence a surface load acts on nodes of the selected face only, its nodal values add up to the integral of the traction, and their moments are the moments of the traction about the physical quadrature points, for every quadrature rule and all node coordinates. For QUAD8 and HEX20 this holds whether a midside coefficient is the value at the node or the mean over its edge; the field takes the coefficient's value at a midside node exactly in the first case (or if it is linear along the edge).", "quantifier": "all element types and faces, all face points, all quadrature rules, all tractions, all node coordinates; both meanings of midside coefficients of the serendipity types", "why_tests_cant": "tests evaluate single quadrature rules; support and resultants concern every face point and every traction", "anchors": ["feax/basis.py:get_face_shape_vals_and_grads", "feax/basis.py:reorder_inds", "feax/fe.py:FiniteElement.get_physical_surface_quad_points", "feax/assembler.py:get_surface_kernel"]}
{"id": "C108", "title": "Density fields written to a result file and read back", "statement": "A nodal field saved with save_sol on a TET4, TET10, HEX8 or HEX20 mesh is read back by from_vtk on the same mesh, with its values rounded to single precision; no node changes sides of a threshold that single precision represents, and saving again changes nothing more. On a plane TRI3, TRI6 or QUAD4 mesh the type, cells and values come back but every point gains a third coordinate, so that the field cannot invert its cells. A QUAD8 mesh comes back as HEX8, and a quadrilateral in space as TET4. from_vtk reports a missing field before missing cells, and otherwise reads the first cell block of a type it knows.", "quantifier": "all meshes, field values and thresholds, all monotone idempotent roundings, all files", "why_tests_cant": "a test checks one mesh per type; the round trip concerns every mesh and every value near the threshold", "anchors": ["feax/utils.py:save_sol", "feax/gene/sdf.py:from_vtk", "feax/gene/sdf.py:_MESHIO_TO_FEAX", "feax/gene/sdf.py:DensityField.__init__"]}
{"id": "C109", "title": "Sparse matrices by coloured probing", "statement": "The sparse Jacobian function, for every valid colouring of a pattern and at every point where the derivative's non-zeros lie in that pattern, returns exactly the Jacobian, in forward and in reverse mode, and multiplies like it. The sparse Hessian function does so for every star colouring of a symmetric pattern, where half the entries may be read from their mirror image. The operator assembler returns the exact matrix of every linear operator whose non-zeros are stored in the pattern given, in any accepted format. For the reduced periodic operator, the pattern of the triple product suffices: the assembled matrix is P'JP. Each colour costs one product and no valid colouring has fewer colours than the fullest row has entries. (The pattern must be a superset: an operator entry outside it is added to another entry.)", "quantifier": "all shapes, patterns, formats, valid colourings, Jacobians, operators, prolongations and stiffness values, over every commutative ring", "why_tests_cant": "Whether probing recovers every entry depends on the colouring and pattern together; a missed coupling corrupts another entry silently.", "anchors": ["feax/asd.py:sparse_jacobian_fn", "feax/asd.py:sparse_hessian_fn", "feax/asd.py:operator_assembler", "feax/asd.py:_csr_producer", "feax/solvers/reduced.py:_create_assembled_reduced_solver"]}
{"id": "C110", "title": "Patch test: affine displacements of a homogeneous body are in equilibrium on every mesh", "statement": "For a single-variable problem on TRI3, QUAD4, TET4 or HEX8 cells whose only term is a stress given by get_tensor_map or an energy density (linear or not), without loads: if the solution vector holds an affine displacement b + A x at the nodes and the stress for the gradient A is the same at every quadrature point, the assembled residual is zero in every component of every interior node, for every mesh, however distorted, as long as the element Jacobians are invertible. Interior means that the cells around the node close up: in the plane every edge at the node is walked once in each direction, in space every face at the node is shared by two cells with opposite orientation. Consequently, when the Dirichlet conditions prescribe the affine field at all other nodes, that field makes every row of the constrained residual zero, i.e. it solves the discrete problem exactly. A body that is not homogeneous need not be in equilibrium.", "quantifier": "every mesh of the four first-order element types (any number and arrangement of cells, any coordinates), every affine field, every stress law, every interior node and component, every quadrature rule with the stated exactness", "why_tests_cant": "a test runs the patch test on one mesh with one law; the claim is about all meshes, distortions and laws at once", "anchors": ["feax/basis.py:get_shape_vals_and_grads", "feax/basis.py:get_elements", "feax/fe.py:FiniteElement.get_shape_grads", "feax/assembler.py:get_res", "feax/DCboundary.py:DirichletBC"]}
{"id": "C111", "title": "Results do not depend on how nodes, cells and faces are numbered", "statement": "Renumber the nodes of every variable, the cells, and the faces of every selected boundary of a mesh (keeping coordinates, connectivity, per-quadrature-point variables and prescribed values attached to what they belong to). The renumbered problem compiles whenever the original one does; its residual at the renumbered unknowns equals the original residual; its tangent is the original one with rows and columns renumbered (for entries both storage views keep, so everywhere for the full view); and a vector solves the constrained problem exactly when the renumbered vector solves the renumbered one. This holds for any mixture of kernels, any number of variables with different numberings, and different batch sizes.", "quantifier": "all coefficient rings, element tables, meshes, numbers of variables and components, physics (including user-written kernels), internal and surface variables, boundaries, batch sizes, states, and all permutations of nodes (one per variable), cells and boundary faces", "why_tests_cant": "There are factorially many numberings of a mesh; a test compares two of them. A defect that shows only for some numbering (a scatter that relies on the order of cells, a cell-0 shortcut, an ordering assumption in the sparse pattern) escapes any finite set of meshes.", "anchors": ["feax/problem.py:Problem", "feax/assembler.py:get_res", "feax/assembler.py:get_jacobian", "feax/fe.py:FiniteElement", "feax/DCboundary.py:DirichletBC"]}
{"id": "C112", "title": "Prescribed values are exact however early an iterative solve stops", "statement": "Let a linear or Newton solve use CG, BiCGSTAB or GMRES with no preconditioner or the Jacobi preconditioner (or any preconditioner that keeps zero entries at constrained unknowns zero), in either elimination mode. Whatever the solver returns, after any number of iterations and with any step lengths, the updated state attains every Dirichlet value exactly. In the Newton loop each pass multiplies the distance from the prescribed values by one minus the accepted line-search step, so the values hold from the first full step on, and always when the start satisfies them. The initial guess changes nothing but the constrained unknowns. With symmetric elimination the adjoint iterate equals the incoming cotangent at constrained unknowns; without it the adjoint guess is not the exact multiplier there. The guess built with a prolongation matrix adds the requests of all constrained full unknowns tied to a reduced one, so it overshoots when several of them are constrained.", "quantifier": "all problems, states, well-formed boundary conditions, elimination modes, zero-keeping preconditioners, iterates of any Krylov method, numbers of Newton passes and step lengths", "why_tests_cant": "Iterative solvers stop at a tolerance; a test sees values close to the prescribed ones and cannot tell whether the error is zero by construction or merely below the tolerance, nor cover every stopping point, step length and preconditioner.", "anchors": ["feax/solvers/common.py:create_x0", "feax/solvers/common.py:create_x0_parametric", "feax/solvers/common.py:create_iterative_solve_fn", "feax/solvers/linear.py:linear_solve_adjoint", "feax/solvers/newton.py:one_step"]}
{"id": "C113", "title": "Reactions balance the applied loads in force and moment", "statement": "For a displacement problem on any mesh, with any stress law given by a tensor map or an energy density, body loads and surface loads on any boundaries, every displacement that is in equilibrium at the unconstrained DOFs has support reactions (the residual at the constrained DOFs) whose sum in each direction is exactly the integral of the body and surface terms. If the stress is symmetric, the moments of the reactions about the reference positions equal the moments of those terms; if P F^T is symmetric, as for every frame-indifferent large-deformation energy, moments balance about the deformed positions. The shape functions must sum to one for the force balance; the moment balance only needs invertible element maps.", "quantifier": "all meshes, element tables, stress laws, body and surface terms, boundaries, constrained sets and displacements in equilibrium, over any commutative ring", "why_tests_cant": "balance must hold for every mesh, load and support set; a test checks one structure to a tolerance and cannot distinguish an exact balance from one that is merely small", "anchors": ["feax/assembler.py:create_volume_kernel", "feax/assembler.py:create_surface_kernel", "feax/assembler.py:get_res", "feax/fe.py:get_shape_grads", "feax/fe.py:get_face_shape_grads"]}
{"id": "C114", "title": "Solutions of convex problems minimise the potential energy, and are unique when the supports prevent strain-free motions", "statement": "Take one variable with a stress (given directly or as the derivative of an energy density), a body term and surface terms that are derivatives of convex potentials (linear elasticity with dead loads, for example), and non-negative integration weights. Then a displacement at which the constrained residual vanishes has the least total potential (the value of the energy function plus the potentials of the loads) among all displacements with the same Dirichlet values; every other one exceeds it by at least the integrated convexity gap of the difference. With positive Jacobians two solutions differ only by a field without gap, so if the supports leave no such field, they are equal at every degree of freedom.", "quantifier": "every mesh, element, number of dimensions and components, material parameters, loads, boundary conditions, pair of fields and ordered ring of numbers", "why_tests_cant": "the minimum is over all admissible fields, and uniqueness over all pairs of solutions; a test compares with a few perturbations", "anchors": ["feax/problem.py: get_laplace_kernel, get_mass_kernel, get_surface_kernel", "feax/assembler.py: get_res, create_energy_fn", "feax/DCboundary.py: apply_boundary_to_res"]}
{"id": "C115", "title": "Superposed rigid motions turn the nodal forces with the body", "statement": "For one displacement variable with a frame-indifferent stress, P(Q F) = Q P(F) with F = I + grad u, and loads that turn with the body (or none), moving every node from x + u to Q (x + u) + t turns every nodal residual vector by Q, for every deformation u. Strain energies that depend on the shape only are unchanged. An unloaded body that is free of stress in the reference state carries no nodal forces after any rigid motion. Every stress of the form F S(F'F) is frame-indifferent for every orthogonal Q.", "quantifier": "every mesh, element whose shape functions sum to one, number of dimensions, deformation, motion and parameters", "why_tests_cant": "a test samples a few rotations and deformations; the claim is for all of them, and for every constitutive law of that form", "anchors": ["feax/problem.py: get_laplace_kernel, get_mass_kernel, get_surface_kernel", "feax/assembler.py: get_res, create_energy_fn"]}
{"id": "C116", "title": "Load cases superpose and are reciprocal for linear problems", "statement": "If the stress, body and surface terms of a problem are additive in the field and the parameters, the residual of the summed load case at the sum of two displacements is the sum of the two residuals, so the sum of two solutions solves the summed case with the summed Dirichlet values. If moreover the stress has a symmetric bilinear form, two load cases with the same supports satisfy Betti's theorem: the loads and support reactions of the first do as much work on the displacements of the second as the other way round, with arbitrary prescribed displacements.", "quantifier": "every mesh, element, pair of load cases, supports, prescribed values and pair of equilibria", "why_tests_cant": "a test checks a few load pairs numerically; superposition and reciprocity hold exactly for all of them", "anchors": ["feax/problem.py: get_laplace_kernel, get_mass_kernel, get_surface_kernel", "feax/assembler.py: get_res", "feax/DCboundary.py: apply_boundary_to_res"]}
{"id": "C117", "title": "The assembled stiffness of a linear problem is symmetric positive semidefinite, and nonsingular when supported", "statement": "For one variable whose stress, body and surface terms are affine in the field and whose element tangents are the derivatives of the element residuals, w'A v for the assembled matrix A equals the bilinear form of the linear parts: internal work of v on w plus the work of the body and surface terms, at every state. If those parts are symmetric, A and the matrix with symmetrically eliminated Dirichlet rows are symmetric. If they are non-negative and the quadrature Jacobians too, both are positive semidefinite. If no nonzero field vanishes at the constrained degrees of freedom and has strain-free gradients at every quadrature point, the eliminated matrix is positive definite (so Cholesky and conjugate gradients apply) and its only null vector is zero, with either way of elimination. With the default quadrature a scalar field whose gradient vanishes at every rule point of a cell has equal coefficients at all its nodes, for every type but HEX20 (not proved); displacements of a single QUAD8 or HEX20 cell are different: with supports that exclude all rigid motions there is a displacement without strain at any rule point, so that cell's stiffness is singular.", "quantifier": "every mesh, element, quadrature, linear material, state, vectors and set of supports", "why_tests_cant": "a test factorises a few matrices; the claim is for every mesh, material field and set of supports", "anchors": ["feax/assembler.py: get_jacobian, create_J_bc_csr_function", "feax/DCboundary.py: apply_boundary_to_J", "feax/problem.py: get_laplace_kernel, get_mass_kernel, get_surface_kernel"]}
{"id": "C118", "title": "Compliance: stiffer material or more supports never increase it, and its change is bounded on both sides; it is convex in the stiffness", "statement": "For two designs on one mesh under the same dead surface loads, each in equilibrium away from its own zero-displacement supports, with linear elastic materials (symmetric, non-negative): if the second keeps at least the supports of the first, the compliance response drops from the first to the second by at least the difference of the internal works of the two materials at the second's displacement. So a design at least as stiff at every quadrature point with at least the same supports has no more compliance. With equal supports the drop is bounded on both sides, by the difference of internal works at the second's displacement from below and at the first's from above: the element strain energies are a sensitivity for finite changes of the design. Compliance is convex in the stiffness: a design whose internal work is a weighted mean of two others' has at most the weighted mean of their compliances.", "quantifier": "every mesh, element, quadrature, pair of material fields, loads and sets of supports", "why_tests_cant": "a test compares a few designs; optimisers rely on the sign and bounds for every density field they visit", "anchors": ["feax/gene/responses.py: create_compliance_fn, create_dynamic_compliance_fn", "feax/assembler.py: get_res", "feax/problem.py: get_laplace_kernel, get_surface_kernel"]}
{"id": "C119", "title": "Chaining solvers: the next problem sees exactly the solved field", "statement": "Turning a solved field into a coefficient of the next problem (TracedParams.node_var_from_solution) reads, for a scalar variable or a chosen component, each node's own degree of freedom; variable and component numbers count from the end when negative, a vector field without a component and a variable that does not exist are errors; for variables counted from the front it agrees with the method of a returned Solution. At every quadrature point of every cell the next problem's kernels then see the solved field interpolated with the element of its first variable with that many nodes, provided the mesh does not have exactly as many cells as that variable has nodes.", "quantifier": "every layout of variables, solution vector, variable and component number, next problem on the same mesh, cell and quadrature point", "why_tests_cant": "tests chain one pair of problems; layouts, component numbers and node/cell counts are unbounded", "anchors": ["feax/traced_params.py: TracedParams.node_var_from_solution", "feax/solution.py: Solution.node_var", "feax/assembler.py: classify_volume_var, gather_internal_vars, interpolate_var"]}
{"id": "C120", "title": "Backward-Euler steps are unconditionally stable and conserve the stored quantity", "statement": "For a transient problem written with the library's kernels as in the implicit pipeline (body term density * (u - u_old) / dt with the previous solution handed over in the parameters, any stress law, optional boundary fluxes) and solved exactly with zero values at the supports: the density-weighted square of the field changes in one step exactly by minus twice the dissipation of conduction and boundaries over the rate, minus the square of the increment. Hence if conduction and boundary fluxes do not feed the field, no step of any size, and no run of steps of any sizes, increases it; the conduction law may be nonlinear. Without supports the weighted integral of each component changes only by the boundary fluxes, and an insulated body conserves it exactly.", "quantifier": "every mesh, element, quadrature, density field, dissipative law, boundary condition, sequence of step sizes and number of steps", "why_tests_cant": "a test runs one mesh with a few step sizes; stability and conservation are claims about all of them", "anchors": ["feax/solvers/time_solver.py: ImplicitPipeline.step", "feax/problem.py: get_mass_kernel, get_laplace_kernel, get_surface_kernel", "feax/traced_params.py: TracedParams.node_var_from_solution"]}
{"id": "C121", "title": "Every variable of a mixed problem balances on its own", "statement": "For a problem with two or more variables given by its weak form, on any mesh whose shape functions add up to one: for each component of each variable, the residual entries at the constrained nodes of a solution add up to the integral of that variable's source term plus its boundary terms; interior fluxes and the other variables' equations contribute nothing. If a variable has no supports and its source is a difference quotient (u - u_old) * rate, as the concentration of a Cahn-Hilliard step, its integral over the body changes by exactly what the boundaries take, whatever the fluxes and the other variables do, also when they are nonlinear; without boundary terms it is conserved.", "quantifier": "every number of variables (at least two), mesh, element types per variable, quadrature, weak form, boundary terms and state", "why_tests_cant": "a test checks the total on one mesh and one state; conservation must hold for every weak form, coupling and step", "anchors": ["feax/problem.py: Problem.get_weak_form, get_surface_weak_forms", "feax/assembler.py: _build_kernel_from_weak_form, _build_surface_kernel_from_weak_form, get_res"]}
{"id": "C122", "title": "Newton solves converge quadratically near a solution and solve linear problems in one step", "statement": "If a full Newton step leaves a residual of at most C times the square of the old one wherever the residual is no larger than at the start, and C times the starting residual is small enough ((C r0)^2 <= 1 - 2 c1 for the jitted solver, C r0 < 1 for the extra-residual and rebuilding-multigrid loops), then the line search accepts every full step, no line-search error is raised, the residual after k steps is at most r0 (C r0)^(2^k - 1), and the solver returns the first iterate that meets a tolerance, or the last one max_iter allows. A linear problem with an exact linear solve (C = 0) takes exactly one step when c1 is at most one half; for larger c1 the exact full step is rejected. Along any direction on which the residual follows its linear prediction 1 - alpha up to C alpha^2, the line search does not fail if it may backtrack until alpha is below (1 - c1) / (1 + 2 C).", "quantifier": "every residual and direction function, start, tolerances, iteration limit, contraction and backtracking settings", "why_tests_cant": "a test sees one problem and one start; acceptance of full steps and the rate are statements about all iterates", "anchors": ["feax/solvers/newton.py: create_armijo_line_search_scan, create_newton_solver, hybrid_solve_fn, solve_fn", "feax/solvers/options.py: NewtonOptions"]}
{"id": "C123", "title": "The homogenized stiffness obeys the classical bounds", "statement": "For a linear elastic unit cell with non-negative integration weights and a symmetric, pointwise semidefinite material, the energy of the homogenized stiffness at any strain is the minimum, over all fields whose deviation from the affine field of that strain is periodic, of the average material energy, and the minimum is attained. So the stiffness is semidefinite, it is at most the average stiffness (Voigt), it is bounded below by constant stresses (Reuss: 2 T:E is at most the energy plus the average of any bound on the complementary energy of T), and making the material stiffer anywhere in the cell never makes the homogenized medium softer at any strain.", "quantifier": "every cell, mesh, periodic pairing, material distribution, strain, admissible field and constant stress; every ordered ring of values", "why_tests_cant": "a test compares a few cells against a few closed forms; bounds and monotonicity are inequalities over all materials, fields and strains", "anchors": ["feax/flat/solver.py: create_homogenization_solver, average_stress, macro_displacement, UNIT_STRAINS_2D, UNIT_STRAINS_3D", "feax/flat/pbc.py: prolongation_matrix"]}
{"id": "C124", "title": "Solved conduction problems obey the maximum principle", "statement": "For a scalar conduction problem (flux = conductivity times gradient, the conductivity non-negative and allowed to depend on position and gradient) on a mesh whose shape-function gradients never couple positively (for linear triangles: no obtuse angles), with non-negative integration weights and shape values: if the residual vanishes at every unconstrained node and every node is linked through conducting cells to a constrained one, then no temperature exceeds the largest prescribed one when body and surface terms only take heat out, none is below the smallest prescribed one when they only put heat in, and without such terms all temperatures lie in the range of the prescribed ones.", "quantifier": "every mesh, material distribution, nonlinear conductivity, set of prescribed temperatures, load and solution; every totally ordered domain of values", "why_tests_cant": "a test checks a few meshes; overshoot is excluded only by an argument over all nodes and couplings", "anchors": ["feax/problem.py: Problem", "feax/assembler.py: get_res, get_laplace_kernel, get_mass_kernel, get_surface_kernel", "feax/fe.py: FiniteElement.get_shape_grads"]}
{"id": "C125", "title": "Clock of the time loop in binary64", "statement": "In double precision, with 0 <= t_start <= t_end and every step size at least the spacing of the floating-point numbers at t_end, each pass of run() moves the clock strictly forward, the loop ends after finitely many passes, and the clock ends no earlier than the stopping bound t_end - 1e-14*dt and at most one number beyond t_end. With a fixed dt <= t_end/2 the clock never passes t_end, every step but the last has exactly size dt, and a shortened last step lands exactly on t_end. If the grid t_start + j*dt is representable and t_end is its n-th point, exactly n full steps are taken. These guards are needed: TimeConfig(dt=1e-5, t_end=1e-2), the documented example, takes 1001 steps (the last of size 2.4e-16), and with dt=1e-12 at t=1e5 the loop never ends.", "quantifier": "all binary64 t_start, t_end, dt within the guards, all sequences of adapted step sizes, any number of steps", "why_tests_cant": "Rounding of the accumulated time depends on the particular numbers; tests sample a few, and a loop that never ends cannot be observed by a test.", "anchors": ["feax/solvers/time_solver.py:run", "feax/solvers/time_solver.py:TimeConfig", "feax/solvers/time_solver.py:AdaptiveDtConfig"]}
{"id": "C126", "title": "Similar bodies: moving, turning and scaling a mesh", "statement": "Map every node x of a mesh to s Q x + t (Q orthogonal, s invertible) and keep cells, element type and coefficients. If the nodal values are mapped to la C u, and the physics hooks of the second problem return mu times the turned stress at the similar gradient, mu/s times the turned body load and mu times the turned tractions, then the residual of the second problem is, node by node, the residual of the first turned by C and multiplied by det-ratio/s*mu (s^(dim-1) mu, the ratio of areas times the ratio of stresses). For displacements la = s, C = Q; for a scalar field C = 1. In particular a change of units multiplies the whole residual by one factor, so a field is in equilibrium exactly if the rescaled one is.", "quantifier": "all meshes, element tables with shape functions summing to one, similarities, ratios of values and stresses, stress, body load and traction hooks, sizes and batch sizes", "why_tests_cant": "Tests compare a few meshes; invariance needs every mesh, field, element and similarity.", "anchors": ["feax/fe.py:get_shape_grads", "feax/fe.py:get_face_shape_grads", "feax/assembler.py:create_volume_kernel", "feax/assembler.py:create_surface_kernel", "feax/assembler.py:get_res"]}
{"id": "C127", "title": "The explicit schemes converge with their advertised order for nonlinear equations", "statement": "Let f be Lipschitz in the state with constant L and let y be the exact solution of du/dt = f(u, t) over [a, b], sufficiently smooth. With any steps of at most H that stay in [a, b], started within e of y(a), the state after time T is within exp(L T) (e + c H^p T) of y(a + T), where p = 1 for euler (c = M/2 with |y''| <= M), p = 2 for rk2 (c = 7M/24 + LM/8 with second and third derivatives at most M) and p = 4 for rk4 (H <= 1, y five times differentiable, f with a bounded derivative along the solution that is Lipschitz in time and has a quadratic remainder; c depends on these bounds only). Two runs with the same steps stay within exp(L T) of their initial distance. Any other scheme name is an error at the first step.", "quantifier": "all dimensions, right-hand sides, solutions, sequences of (adapted) step sizes and perturbed initial states", "why_tests_cant": "Orders of convergence are statements about all step sizes and all equations; a wrong stage shows only in the rate, and a test measures it on one equation.", "anchors": ["feax/solvers/time_solver.py:ExplicitPipeline.step", "feax/solvers/time_solver.py:run"]}
{"id": "C128", "title": "Parameter fields built from a function take that function's values", "statement": "A volume variable built with create_spatially_varying_volume_var gives every quadrature point the value of the function at its physical position, for every function; a node variable built with create_node_var_from_fn gives every quadrature point the value of the function at its physical position when the function is affine, on every element whose shape functions add up to one; a cell variable built with create_cell_var_from_fn gives every quadrature point of a cell the value at the mean of the cell's nodes, which for an affine function is the mean of its nodal values; a surface variable built with create_spatially_varying_surface_var holds, per face and face quadrature point, the value at that point's position, and for a constant function equals create_uniform_surface_var. For a function that is not affine the node variable differs from the function between the nodes (proved as a counterexample).", "quantifier": "every function of the position, every mesh, number of cells, nodes, variables and quadrature points, every cell and quadrature point", "why_tests_cant": "tests evaluate a few functions on one mesh; the claim is about every function, mesh and quadrature point, through classification, gathering and interpolation", "anchors": ["feax/traced_params.py: create_node_var_from_fn, create_cell_var_from_fn, create_spatially_varying_volume_var, create_spatially_varying_surface_var, create_uniform_surface_var", "feax/fe.py: get_physical_quad_points, get_physical_surface_quad_points", "feax/assembler.py: interpolate_var, gather_internal_vars"]}
{"id": "C129", "title": "Corner, edge and face nodes of a unit cell", "statement": "For a unit cell mesh in any dimension: the bounds contain every node and are attained; is_corner holds exactly for points with every coordinate on the bounding box (within atol + 1e-5 |bound|), is_edge exactly for points with all coordinates but one on it, is_face exactly for points with all but two; the masks have one entry per node and no node is in two classes; in three dimensions the three classes together are exactly the nodes on the box and in two dimensions corners and edges are; corners lists all 2^N choices of lower or upper bound per axis, each recognised as a corner, without repetition if the box has extent; cell_centers is the mean of each cell's nodes. In two dimensions face_mask marks exactly the nodes on no side, not nodes on a face (proved).", "quantifier": "every mesh, dimension, tolerance, node and cell", "why_tests_cant": "tests look at a cube mesh; the claim is about every mesh, tolerance and dimension", "anchors": ["feax/flat/unitcell.py: is_corner, is_edge, is_face, corner_mask, edge_mask, face_mask, corners, cell_centers"]}
