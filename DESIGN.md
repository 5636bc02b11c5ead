# Formal model of feax in Rocq — design

## Approach

`rocq/theories` holds a shallow Gallina model of the parts of `/repo/feax` that the properties in
`properties.jsonl` talk about. For each topic `X` there are three kinds of file:

* `X_Model.v`  – definitions only; each cites the file and lines it models and names its simplifications;
* `X_Proofs.v` – lemmas;
* `X_Props.v`  – the small independent specification, the property theorems (each closed by `exact`),
  an `Example` that its hypotheses are met by a concrete case, and `Print Assumptions`.

Conventions

* Index arithmetic is done in `nat`/`Z`. Arrays are lists; `x.at[i].add/set` with out-of-range indices
  is modelled as JAX does it (dropped for scatter; negative indices wrap once).
* Floating-point values are modelled by an arbitrary commutative ring (`CRing`, a record quantified in
  each theorem) where only `+ - *` matter, and by `Q` where order or division matters. Rounding is out
  of scope. NaN is represented (as `None`) where control flow depends on it.
* Automatic differentiation is not modelled: element residuals and element Jacobians are arbitrary
  functions. Linear solver backends are arbitrary exact solvers (`A x = b` as a hypothesis).
* Python exceptions are values (`option` / a `result` type).

## Plan per property

| id | modelled | proof |
|----|----------|-------|
| C01 | `_build_csr_assembly_structure`: key = row*n+col, stable sort, run detection, cumsum, indptr | induction on the sorted list; sort is a permutation |
| C02 | `_csr_data_from_values` scatter-add, `todense` | sum exchange over the slot map |
| C03 | `_batching`, `_pad_axis0`, scan over batches, slot-sorted scatter | chunk/concat lemmas, permutation invariance of sums |
| C04 | fused scan carrying residual and matrix accumulators | projection of the fused fold |
| C05 | residual scatter over cell and face DOFs | sum exchange |
| C06 | transpose permutation, `rmatvec` | permutation of slots, sum exchange |
| C07 | `@`, `diagonal`, `todense` | sum exchange |
| C08 | UPPER/LOWER filter, discard bucket, view-aware matvec | case split on the triangle |
| C09 | `apply_boundary_to_J_csr`, including the -1 sentinel wrap | slot-wise; refuted without a diagonal entry |
| C10 | same | corollaries |
| C11 | `apply_boundary_to_res` | scatter-set lemmas |
| C12 | `create_bc`; BcConfig_Model: `add`, chains of calls, `from_specs`, the pytree of the compiled conditions | stable sort + first occurrence; induction over the calls |
| C13 | `create_matfree_res_J_parametric` | masked sums |
| C14 | one-step linear solve | linear algebra over any ring; refuted for symmetric elimination with an inconsistent guess |
| C15 | Newton backward pass | linear algebra over any ring |
| C16 | Krylov backward pass | as C15; refuted for unsymmetric blocks |
| C17 | line-search scan over Q with NaN | induction on the scan |
| C18 | while-loop as fuelled iteration with fuel = max_iter; host loops of the AMG and extra-stiffness solvers | induction |
| C19 | record update functions | list lemmas |
| C20 | shape classifiers | case analysis; refuted when num_cells = num_nodes |
| C21 | `_offset`, `field` | prefix sums |
| C22 | id/ijk maps over Z | Euclidean division |
| C23 | `fit`, `point_cells` over Q | floor arithmetic |
| C24 | `dilate_cells` | membership equivalence |
| C25 | `SparseDesign` sorted arrays, int32 cast | refinement to a finite map; refuted beyond int32 |
| C26 | `NarrowBand` maps | searchsorted lemmas |
| C27 | `SupersetBand` step function | invariant over histories |
| C28 | `rectangle_mesh` | index arithmetic |
| C29–C31 | `run` loop over Q | induction on steps |
| C32 | `_build_transfer` with grid arithmetic | parity case analysis |
| C33 | colour formula | parity |
| C34 | `merge_csr_patterns` | reuse C01/C02 |
| C35 | `prolongation_matrix` | counting argument; refuted for chained pairings |
| C36 | `_validate_bc_pairing`, reduced solve | linear algebra |
| C37–C39 | option resolution, dispatch | finite case analysis, lifted to all records |
| C40 | block-diagonal CSR | concatenation of patterns |
| C41 | cache state machine | invariant over call lists |
| C42 | `value_at` | Q arithmetic; refuted for wrong step sign |
| C43 | bisection loop | invariant |
| C44 | epoch loop with oracle optimiser | invariant |
| C45 | weighted average | ordered sums; mass conservation refuted |
| C46 | graph conversions | membership equivalence |
| C47 | probe-based decision, flag on the shared problem | refuted in general (three witnesses), sound for dead loads and for linear loads at the same parameters |
| C48 | released arrays, lazily filled caches and TracedStructures as a state machine | invariant over all histories |
| C49 | tables, `reorder_inds`, the two numbering conventions | finite computation for the tables, induction for the conversion |
| C50 | band filter with searchsorted | equality of sums |
| C51 | `zero_like_initial_guess` | scatter-set lemmas |
| C52 | `euler`/`rk2`/`rk4` steps over a module of vectors | ring identities |
| C53 | `Mesh.from_gmsh` block selection | list induction |
| C54 | tag-to-index maps of `refine_mesh`, `box_mesh` | inverse-map lemmas; refuted for unordered tags |
| C55 | finest multigrid level numbering, load vector, level count | reuse C26 numbering lemmas |
| C56 | `universal_graph`, segment distance over Q | convex quadratic minimisation on [0, 1] |
| C57 | constraint registration, start design, history rows | case analysis |
| C58 | `run_narrowband_oc` loop with abstract solver | loop invariant; dilation as graph distance |
| C59 | ladder and iteration plan of `run_narrowband_multires` | induction on levels |
| C60 | `heaviside_projection`, sorted-quantile threshold | order lemmas, counting |
| C61 | `UnitCell` predicates with `isclose`, centroid `mapping`, `periodic_bc_2D/3D`, composed with `prolongation_matrix`; integer coordinates in an arbitrary unit | every node gets a side pattern; pairings enumerate the patterns with a high side once; C35 does the rest |
| C62 | `cyclic_prolongation_matrix` row by row | rank of independent nodes is a bijection; sums over nonzero rotation entries |
| C63 | geometry tables of `FiniteElement`, node concatenation of the variables, `Operator.eval/grad/integrate_*`, all five kernel builders and the composition rules, connected to the assembly model of C02-C05; `det`, `inv`, `norm` are oracles | testing an element vector reads the test vector at the element's DOFs; exchange of finite sums; C05 and C21 |
| C64 | `create_energy_fn` at given quadrature values of the volume variables, `shape_grads`; differentiation is a first-order expansion with a step t (dual numbers in the example) | C63 plus finite-sum algebra; sum of shape gradients is zero |
| C65 | `macro_displacement`, `average_stress`, the unit strains, both solve paths on the reduced operator of C36 and the element kernels of C63, `_translation_pin_dofs`, `_zero_mean`, `_solve_bwd`; exact linear solves and exact element tangents are hypotheses, the quadrature values of the volume variables are given | Voigt contraction, affine gradients (C64), balanced class forces do no work on periodic fields, force balance for the pinned rows, bilinearity of finite sums |
| C66 | the Voigt-to-tensor scatter loop with its four writes, both einsums, the reciprocal; the direction grid and quad connectivity of the sphere; matrix inverse, reciprocal, sine and cosine are inputs constrained by their defining identities | closed form of the scattered tensor (81 entries), ring identities, mixed-radix index arithmetic |
| C67 | trees with marked multipliers, `prepare_update`, `eq`, `ineq`, `combine` with `zip` truncation; `optax.sgd`/`apply_updates` as in the usage example; differentiation by evaluating the same model on dual numbers; default reduction `np.sum`; broadcasting of mismatched multiplier shapes is not modelled | structural induction over trees and paths; dual-number evaluation; induction over the run for the stuck slack |
| C68 | both maps with their vertex tables and shape functions, the smoothed sign with the real `tanh`, both tensor builders with the real `sqrt` and `max`, and the broadcasting of array arguments; real numbers of the standard library | closed forms of the maps, convexity of the weights, monotonicity of `tanh`, completion of squares for the quadratic forms and explicit witness vectors for the converse |
| C69 | all four closures entry by entry, `principal_direction` over an `eigh` given by its contract (ascending eigenvalues, orthonormal eigenvector columns); unbatched arrays, real numbers | finite averages; the chord construction of two-atom distributions on the circle and mixtures of antipodal Schur coefficients; variance bound for the converse; determinant bounds of positive semidefinite matrices; spectral expansion |
| C70 | both builders with their coefficient formulas and einsum index orders; exact real arithmetic | field identities for the aligned state, multilinearity of the rotation, averages of quadratic forms, completion of squares in fibre coordinates |
| C71 | both potentials branch by branch at one node (they are elementwise), with the tolerances 1e-15 and 1e-30, over the real numbers | derivatives (Coquelicot's auto_derive, stated with the standard derivable_pt_lim), mean value theorem, exp x >= 1 + x |
| C72 | the two weight functions, constructor, `from_axis` (non-negative axis), `get_jump`, `get_opening`, `get_opening_components`, `create_energy_fn`; lists of reals | induction over points, quads and quad nodes; counting of node occurrences; Pythagoras for the residue of the normal projection |
| C73 | both compliance constructors on the finite element and boundary data of the kernel model; the load parameter forms None, scalar, list | the loops are rewritten to the surface weak form of C63; the equilibrium statement instantiates the C63 composition theorem at the solution |
| C74 | the whole function, on the ravelled input | sums over cells and quadrature points, partition of unity |
| C75 | classification, energy density (dimension two and three), regularization kernel of one cell, factory parameters; automatic differentiation is replaced by real differentiability (the gradient that a reverse-mode select would give at J = 0 exactly, NaN, is not modelled) | calculus of ln, Hadamard's determinant inequality with the arithmetic-geometric mean inequality, finite-sum algebra |
| C76 | the whole function, with the two k-d tree queries as arguments constrained by their nearest-neighbour contract where a theorem needs it | loop invariant over the candidate passes, Cramer's rule, weighted-sum bounds |
| C77 | both functions; the nearest-node query is an argument | finite sums, list maxima, 3x3 inverse |
| C78 | the three functions with gmsh's answers as arguments | list induction, interval arithmetic on the bounding boxes, loop invariant |
| C79 | the operator classes and the grid construction of to_mesh; primitives are arbitrary functions with their own batch evaluation and bounds; marching cubes is not modelled | structural induction over the expression, arithmetic of nested flattening |
| C80 | __call__, evaluate (linear simplices), the inside, distance and clamp rules; the k-d tree answers and the inverse map are arguments, the latter constrained by the linear system it solves; the Newton iteration for other elements is not modelled | loop invariants for both candidate loops and their equality, weighted-sum bounds, computation over the element tables |
| C81 | geometry, meridian, point array filled at node ids, cells, zones, Jacobian check, node sets, dof sets, dome mask, location functions; rim location function only through its node set | mixed-radix arithmetic, trigonometric identities, Lipschitz property of the distance from the half axis |
| C82 | the three functions over real vectors | vector algebra, induction over the layup, trigonometry of the mesh points |
| C83 | all builders and rotations over the reals; the inverse of the 6x6 compliance as the inverse of its two blocks; winding stiffness and expansion of one cell | mode products and their algebra, inverse of 3x3 matrices, completion of squares, Rodrigues identities |
| C84 | quadrature, per-ply stiffness expansion, both kernels, geometric kernel, stress recovery; leggauss as a rule with its exactness contract, basix gradients as an argument with the partition-of-unity contract (shown for HEX8) | affine change of variable through antiderivatives, sums over nodes and points, inverse Jacobian |
| C85 | all builders, rotations, the laminate and thermal sums, over the reals; jax.vmap over plies as lists with its length check | mode products in the plane, antiderivatives of quadratics, Simpson's rule for positivity, telescoping and mirrored sums |
| C86 | strains, resultants and weak form at a quadrature point; the assembly that sums them over points is modelled in the kernel files; make_mindlin_plate only passes its arguments on | exact expansion of the energy along a line as a quartic polynomial, major and minor symmetries |
| C87 | counting over the flattened list of operations, top-n, timing block, time_fn, profiled Newton loop, prefixes; the clock as an arbitrary sequence of readings; text formatting, memory snapshots and compiler cost queries are not modelled | induction over operation lists and loops |
| C88 | the reduction by Cholesky and triangular solves, selection and scatter, normalisation and padding, backward rules of the host and device backends with infinities; Cholesky, eigh and ARPACK by their contracts in exact arithmetic; block Lanczos on the device and sparse factorisations are not modelled | triangular injectivity, orthogonal expansion, derivative of the eigen equation, sums over slots |
| C89 | selection, Jacobians, inverses, Nanson scale, interpolation, gradients, second derivatives and their table; basix by its contract (facet normal parallel to the facet's cross product, reproduction of polynomials); ShapeFn_Model: the shape function tables of all nine types | cofactor identity J^-T cof, sums, pull-back of the quadratic field |
| C90 | the strided writes, centring, row zeroing, preset table, candidate count, choice of the outer method; pyamg's hierarchy and amjax's cycle are not modelled | case analysis per column, affine exactness of C89, elimination of the axial vector |
| C91 | both writers as state machines over abstract HDF5 and XML files; single precision, XML quoting, slashes in names and file system errors are not modelled | invariant over histories; decimal printing is injective |
| C92 | element matrix, operator, block smoother, transfer, V-cycle, preconditioned CG loop, SIMP law with whole-number exponent, compliance, custom backward rule, padding, coarse option parsing, over the real numbers; the coarsest solver is an arbitrary function of the right hand side (the code hands it a padded vector); rounding, NaN and the JIT cache are not modelled | exactness of two-point Gauss quadrature on quadratics (Coquelicot's RInt, in the statement); the CG loop invariant r = b - K u on free dofs; truncation of padded sums; implicit differentiation by pairing with the adjoint |
| C93 | the filter's physics and parameters in the kernel and assembly model of C63, over the real numbers; the linear solve enters through its leftover residual (C14, C36); differentiation of the filter is C15/C16 | C63 turns the residual into the weak form; energy argument for bound and uniqueness; testing with the constant field for the volume |
| C94 | the launcher as a trace of started processes, with failures given by an oracle; command lines and variables as strings, with the remote shell's splitting at blanks and docker's -e options; argument parsing, YAML syntax, ssh, quoting and workers that never end are not modelled | induction over the node list; splitting a concatenation of blank-free words; decimal printing round trip |
| C95 | residual, merged tangent with the pattern merge and value placement of C34, matrix-free products, both backward passes and the correction on constrained rows; the extra term is an arbitrary function with its tangent (AD contract), sparsity detection by its contract; the host loops are C18's | elimination algebra of C15 over the summed tangent; C34 for the merged matrix |
| C96 | newton.py:276-391: policy, hierarchy reuse, adaptive check, line search, stopping; hierarchy construction and Krylov iteration are arbitrary functions; jit caching not modelled | one invariant of the loop by induction on the remaining passes; policy facts by induction along the trace |
| C97 | mesh.py:148-218, 745-771 over the real numbers; Gmsh's addCylinder and rotate by their documented meaning; the mesher itself and the zero axis are not modelled | Rodrigues rotation about a horizontal axis as polynomial identities; case analysis on the degenerate branches |
| C98 | LinCheck_Model: floats as exact reals or NaN, sparse matrices as entry lists with padding, the matrix-view product, the diagonal scatter, check_convergence, linear_solve, the Jacobi preconditioner, the cuDSS closure with its captured pattern and entry count, prewarm_direct_solvers. Not modelled: infinities and rounding, the backend itself (a function of pattern, values and right-hand side). | spmv and the triangular reconstruction are proved equal to the dense operator by induction over the entries; the check is then a norm inequality; the error bound is Cauchy-Schwarz with coercivity; the closure by induction over the history of calls. |
| C99 | Krylov_Model: the scan step with both Gram-Schmidt passes, start vector, _host_ritz (library eigenpairs as input), Ritz vectors, K-normalisation, residual check, padding, restrict_map, TpermK, symmetrisation, the index cache. Over the reals; rounding and complex pairs are not modelled; factorisation and eig by contract. | Invariant by induction over the columns; the Ritz identity by exchanging sums; norms by Cauchy-Schwarz; uniqueness of strictly sorted lists for the transposed pattern; induction over histories. |
| C100 | TimeGrad_Model: the reverse pass over the steps as a relation (adjoint solves by contract), the detached state. Specification: tangents of the trajectory, tied to real derivatives along a path by C100_tangent. Not modelled: rounding, unconverged solves. | Induction over the chain with the transposition identity of each step; regular adjoint systems give zero cotangents from zero. |
| C101 | RedNull_Model: the weighted pull-back on stored entries over the reals and the option rule. Specification: class averages, squared distance after prolongation. Not modelled: rounding, the other AMG options (carried over unchanged). | Sums over stored entries rewritten as sums over rows; Pythagoras identity class by class. |
| C102 | Refine_Model: validation, injection with 1-based tags and z padding, an arbitrary refinement step on the store, read-back through the tag remap, trimming. Specification: coordinates of a cell in a mesh and in a store. Gmsh's refinement is a parameter; its element node order is only used in the ten-node finding (taken from Gmsh's documentation). | Position of a tag in a list of distinct tags; induction over the levels for invariants and counts. |
| C103 | BoxDiv_Model: size parsing, the point counts with truncation over the reals and in binary64 (SpecFloat), the direction test on the edges' bounding boxes. Not modelled: Gmsh's transfinite mesher, rounding in the direction test. | Bounds on the integer part; case analysis on the direction tests; evaluation of the binary64 division for the counterexample. |
| C104 | Session_Model: the functions as programs over a session, its options, temporary files and a log of the options at each generation; big-step semantics in which every external call may raise. Contracts: initialising an open session keeps it, finalising drops all options and does not raise, known options set to literals do not raise. Not modelled: the geometry itself, process kills. | Induction over executions for sequences of calls and retry loops; the finally clause closes the session; straight-line pieces are determined up to the point of failure. |
| C105 | Race_Model: each call as a small program over its callback's shared dict, one read or write per step, and a scheduler that picks any call at each step. Simplified: a call into the library is atomic; right-hand sides fit their own matrix. | An invariant over the shared dict and the position of every call, preserved by every step of every call; a measure that drops at each step; the two failures by explicit schedules. |
| C106 | ProbInit_Model: Python values with list and string indexing, the normalisation, the loop with its cache keyed by mesh identity, the quadrature check, custom_init as an arbitrary function, the validation, flatten and unflatten. The data computed from the finite elements is modelled elsewhere (Csr_Model, Assembly_Model). | Induction over the variables: the list of built elements has no duplicates and each variable points at its own arguments; normalising twice is normalising once. |
| C107 | FaceQuad_Model: Basix vertices, facets and nodal Lagrange bases written out from the published conventions (checked to be nodal at the layout points), the mapping of facet points, the reordering, the nodal loads. Serendip_Model: the serendipity types QUAD8 and HEX20 with the scale of the edge functions as a parameter. | Polynomial identities in the face coordinates for each type, face and node; induction over the quadrature points for the loads. |
| C108 | VtkLoad_Model: the file as a value, save_sol for one nodal scalar with the type guessed as in Writer_Model, from_vtk with its lookup and block search. Contract of meshio's VTU format: plane points get a third coordinate zero, the rest comes back as written. | Case analysis over the types with induction over points and blocks; monotone rounding for the thresholds. |
| C109 | seeds, products per colour, decompression (plain and star), placement on the canonical pattern, reduced pattern; asdex by what its functions compute, its colouring heuristic is an input | a probe is a row sum over one colour, which has one non-zero term; combined with the placement and pattern theorems of C34 and the matrix product of C07 |
| C110 | Patch_Model.v (first-order gradient tables in Basix order and their re-ordering with the table of basis.py) with Kernel_Model.v, Basis_Model.v, Assembly_Model.v and Bc_Model.v | The residual against a unit vector is the discrete weak form (C63_composition). The gradient of the affine field is A everywhere, so entry (a, k) is P times the sum over the cells at a of the integrals of the gradients of a's shape function. With the adjugate for det times inv this integral is a closed form in the coordinates of the neighbouring nodes: next minus previous node in the plane, a sum over the faces at a in space (for HEX8 the moment of a bilinear patch), which changes sign when the face is walked the other way. The sums cancel over a closed star. C11_zero_iff gives the statement for the constrained residual. |
| C111 | The compiled problem of Kernel_Model (geometry, kernels, index maps) together with assembly (Assembly_Model, Csr_Model) and constraint application (Bc_Model): no new definitions of the program, the property relates two runs of the existing model. | Renum_Props.v: every geometric quantity of a renumbered cell equals that of the original cell (it reads the mesh only through the coordinates of the cell's nodes), kernels depend on element tables only, the element DOFs are relabelled by an injective map, and the assembled sums are permuted. Theorems C111_residual, C111_jacobian, C111_solution; C111_example permutes cells, both variables' nodes (differently) and two faces of a two-variable problem. |
| C112 | Guess_Model.v: both guess builders, the guess with a prolongation matrix, the Jacobi preconditioner, the update of the linear and Newton solves, and the search space of the JAX Krylov methods (an inductive set: everything reachable from the first residual by the operator, the preconditioner and linear combinations). The library's own loops are not modelled. | Guess_Props.v: the constrained rows of the operator act as the identity in both modes, the guess makes the first residual zero there, and the search space is closed under the operator and the preconditioner, so every correction vanishes there; the Newton statement is by induction on the passes. Theorems C112_preconditioners, C112_early_stop, C112_newton, C112_guess, C112_adjoint, C112_adjoint_refuted, C112_reduced_guess, C112_reduced_refuted. |
| C113 | the composition of kernels and assembly of C63 (Kernel_Model, Assembly_Model); reactions, moments and load totals are the specification in Moment_Props | virtual work on translations and on the lever field of a moment plane, evaluated with C63_composition |
| C114 | no new model: residual and energy as in C62 to C64, constrained residual as in C11 | Potential_Props: weak form of the residual tested with the difference of the fields, first-order convexity at every quadrature point, sums of ordered terms; zero sums of non-negative terms give uniqueness |
| C115 | no new model: residual as in C62 and C63, energy as in C64 | Objective_Props: gradient of the moved field is Q (I + G) - I at every quadrature point, so its virtual work on v is the work of the original on v turned back; unit test vectors give the nodal statement |
| C116 | no new model: residual as in C62 and C63, constrained residual as in C11 | Linear_Props: weak form of each residual, linear interpolation of the sum of fields; for reciprocity both displacements are used as test vectors of the other case |
| C117 | no new model: assembly as in C02, elimination as in C09, kernels as in C62 and C63; that the element tangents are exact derivatives (forward-mode differentiation) is a hypothesis; the points of the default quadrature rules | Modes_Props, Underint_Props: gradients at the rule points as linear equations for the nodal coefficients, an explicit displacement for the reduced rules. Stiffness_Props: the product with the tangent is the change of the residual, element by element; its virtual work is the weak form of the linear parts; definiteness from sums of non-negative terms over an ordered ring |
| C118 | no new model: compliance as in C73, weak form as in C62 and C63; body forces excluded, as in the compliance response itself | Comply_Props: weak equation of each design tested with both displacements, non-negativity of the first material's work of the difference of the displacements |
| C119 | Chain_Model: node_var_from_solution; gather and interpolation as in C20, layout as in C21 | Chain_Props: entries of the bridge by the layout theorem C21_field, composed with the interpolation theorem C20_node |
| C120 | no new model: the weak form of C63 with the mass kernel; that the parameters hold the old field at the quadrature points is C119; the solve is exact (residual zero), as in C113 and C114 | Diffuse_Props: the residual's work on the new field, 2(a-b)a = a^2 - b^2 + (a-b)^2 at each quadrature point; run by induction; conservation from C113_forces without supports |
| C121 | no new model: the assembled weak form of C63 and the degree-of-freedom numbering of C21 | Mixed_Props: the residual tested with the field that is one in the chosen component; injectivity of the numbering turns the sum of entries into that work, gradients of a constant vanish by partition of unity |
| C122 | no new model: the line searches and loops of C17 and C18 | Converge_Props: full steps satisfy the sufficient-decrease test by the quadratic bound, by induction on the iteration all norms stay below the start; stop reasons from C18 |
| C123 | no new model: the homogenization paths of C65; voigt_strain and voigt_energy spell out the Voigt convention independently of the tables | Bounds_Props: the energy form is symmetric and linear in each argument through the virtual work (C63), periodic fields do no work on responses (C65); the responses combine linearly to the minimiser |
| C124 | no new model: the kernels and assembly of C63 | Maximum_Props: test the residual with the indicator of the hottest nodes; all contributions have one sign and add up to zero, so the hottest set is closed under links and reaches a constrained node |
| C125 | TimeFloat_Model: the loop condition, the clamped step and the update of the clock over abstract arithmetic, instantiated with the standard library's IEEE binary64 (SpecFloat) and with reals rounded to nearest even (Flocq; overflow not modelled). | Successor and spacing lemmas give progress; a step is at least the smallest subnormal, so the passes are bounded; Sterbenz' lemma makes t_end - t exact past the half. The refutations run the SpecFloat instance. |
| C126 | Kernel_Model and Assembly_Model: one variable, no universal or extra kernel; determinant, inverse and length of the Jacobians enter through det(sQM) = sd det M, inv M = M^-1 and |v Q/s| = |v|/s, which the library functions satisfy. | Jacobians are multiplied by sQ and their inverses by Q^T/s; shape gradients turn; each kernel of the work form (C63) scales; the residual is read off from unit test fields. |
| C127 | Explicit_Model: the three schemes and the passes of the time loop over real vectors (the pytree operations are entrywise); rounding is not modelled. | Growth of one step by Taylor polynomials of exp; local errors by Taylor expansion of the solution (proved from derivatives on the closed interval); for rk4 an algebra of order terms in h in which the stages are expanded about the solution with the derivative of f; local errors add up by induction over the steps. |
| C128 | ParamFn_Model: the four constructors and the positions of the quadrature points; the arrays then pass through the classification, gathering and interpolation of Params_Model. | An affine function commutes with combinations whose weights add up to one; the C20 theorems give what a kernel receives from each storage kind. |
| C129 | UnitClass_Model: the masks, the corner list and the cell centres on top of the predicates of UnitCell_Model; integer coordinates in an arbitrary unit. | The number of coordinates on the box and the number off it add up to the dimension; counting duplicate-free lists of axes. |

Rows are added to this table when a property is added; properties C61 and later are described in
`properties.jsonl` and at the head of their `_Props.v` file.

## Trusted base

* Coq 8.16.1's kernel, and the compiler that ran it. No plugin, no `native_compute`; `vm_compute` is used
  in examples and in finite table checks, so the bytecode evaluator is trusted there.
* `Print Assumptions` follows every property theorem in its `_Props.v` file. All of them print
  `Closed under the global context`, except the theorems stated over the real numbers of the standard
  library (C68 and later, where `Reals` is imported). Those list axioms of the standard library only:
  `ClassicalDedekindReals.sig_forall_dec`, `ClassicalDedekindReals.sig_not_dec`,
  `FunctionalExtensionality.functional_extensionality_dep` and, where a proof uses limits,
  continuity or derivatives (`exp`, `tanh`, `sqrt`), `Classical_Prop.classic`.
  Coquelicot's derivative and integral lemmas are used in `Cohesive_Props`, `Tmc_Props`, `CmgInt_Props` and `Explicit_Props`;
  Flocq's lemmas on rounding are used in `TimeFloat_Props`;
  neither library adds an axiom of its own to what `Print Assumptions` lists.
  No axiom is declared in this development. (The gate lists seven parameters of `Coq.ssr.ssrunder`;
  these are module parameters that standard library files load and no theorem uses.)
* The reading of the Python source: that each definition in `*_Model.v` says what the cited lines do.
  The model was checked against the source by reading only, since the sandbox cannot run the code.
* The specifications in `*_Spec.v` and at the head of each `*_Props.v`, which state what the English
  property means. Two are facts about third parties rather than about feax: the Basix and meshio node
  numberings (C49) and the Gmsh tag conventions (C54).

What the theorems take as hypotheses instead of modelling it:

* arithmetic is exact: a commutative ring, `Q` where order and division matter, or the reals `R` where
  square roots and `tanh` are taken (C68);
* AD: an element kernel is an arbitrary function returning a residual and a tangent of the right shape;
  that the tangent is the derivative is not used or claimed except where stated as a hypothesis (C15, C16);
* linear solvers: "the returned vector solves the system" is a hypothesis of the theorems that need it;
* norms, square roots, `exp`, `tanh`: oracle functions with the few laws a theorem names
  (non-negativity, monotonicity, `tanh` odd and bounded);
* the MMA/NLopt optimiser (C44, C57): an arbitrary sequence of evaluation points within the bounds.

## What is modelled

Beside each property above stands what its model covers. By source file:

| source | modelled | not modelled |
|---|---|---|
| `problem.py` | construction and its checks, DOF numbering, COO pairs, view filter, CSR structure, transpose maps, slot maps, face selection, scratch release | the JAX arrays themselves |
| `fe.py`, `basis.py` | shape gradients, `JxW`, face quantities (Nanson), face selection, node reordering, element tables written out from published conventions | Basix's tabulation (its bases are written out; for HEX20 and QUAD8 up to the scale of the edge functions) |
| `assembler.py` | the element kernels (mass, Laplace, energy, weak form, surface, universal), batching, slot sorts, volume and face accumulation, fused path, residual, reference path, matrix-free operator, energy functional, internal-variable classification and interpolation, dead-load detection | automatic differentiation (element tangents are arguments constrained by what each property needs), jit and vmap transformations |
| `csr.py`, `DCboundary.py` | products, transpose, diagonal, dense view; specs, component names, `create_bc`, elimination, residual rows, value replacement | dtype handling; geometric location functions beyond a predicate |
| `traced_structure.py`, `traced_params.py`, `solution.py` | all functions with semantic content | pytree registration details |
| `solvers/linear.py`, `newton.py`, `reduced.py`, `common.py` | forward and adjoint passes, guesses, line search, device and host loops, preconditioners, prolongation checks, convergence checks | printing, logging; JAX's and SciPy's Krylov loops (by the space they search, C112) |
| `solvers/options.py`, `solver.py` | construction checks, automatic choice, dispatch | environment probing of CUDA |
| `solvers/direct/` | block-diagonal batching, factor caches (sequential and concurrent), callbacks, pattern capture | the factorisations; nested vmap |
| `solvers/amg.py`, `cmg.py` | near-null space, rebuild policy; transfers, colouring, smoother, V-cycle, outer CG, coarse density, layout, level count | pyamg, amjax |
| `solvers/eigen.py` | reduction, selection, normalisation, sensitivities; Arnoldi basis and Ritz pairs of the device solver | sparse factorisations, ARPACK, eigh (by contract) |
| `solvers/time_solver.py` | loop, adaptive steps, saves, history, explicit and implicit steps, gradients through steps; the clock in binary64 | rounding of the states |
| `mesh.py`, `spgrid.py`, `narrowband.py`, `utils.py` | structured meshes, Gmsh import and export as data, sessions and temporary files, numbering, dilation, sparse designs, bands, result files | Gmsh's meshers, XML and HDF5 encodings |
| `flat/` | pairings, unit cell, prolongation, graphs, homogenisation and its bounds | plotting |
| `gene/` | continuation, optimiser driver, OC update, filters, projection, responses, multipliers, narrow-band and multiresolution loops, signed distance fields, adaptive meshes, mesh extraction | MMA itself, marching cubes |
| `mechanics/` | orientation maps and closures, averaged stiffness, cohesive laws and interfaces, third-medium contact, pressure vessel meshes, layered solids, shells | automatic differentiation of the energies (derivatives are stated and proved) |
| `profiler.py`, `distributed/`, `asd.py` | counting, timing blocks; launch plans and ranks; coloured probing | text formatting, ssh, docker |

Modelled nowhere: rounding (except C103 and C125), GPU kernels, third-party solvers (SciPy, UMFPACK, CHOLMOD,
cuDSS, AMGX) beyond their contracts, plotting, logging.

## Findings

Places where the property a user would expect is false of the code. Each is a theorem ending in
`_refuted` (a concrete witness, or a statement for every history), and the property text in
`properties.jsonl` carries the guard under which the claim is proved.

* C04: the skip flag for surface tangents is honoured by one assembly path only.
* C09: a constrained DOF without a diagonal entry overwrites the last stored slot and gets no row of its own.
* C13: with triangular storage the assembled operator is the stored triangle and differs from the matrix-free one.
* C14: a BC overridden at call time is not in the default guess; under symmetric elimination the free equations fail.
* C15: with triangular storage the direct adjoint's BC correction uses the stored triangle only.
* C16: for unsymmetric tangents the Krylov adjoint under symmetric elimination gives a wrong gradient, and the
  gradient with respect to prescribed values misses the coupling to the free DOFs.
* C17: a failed line search still moves and may increase the norm. C18: a NaN residual at the guess returns the guess.
* C20: a cell array is taken for a nodal one when both counts agree; shapes that fit no layout are not rejected.
* C23: points on the upper faces of a grid fitted by dimensions (or with no padding) are reported outside.
* C25: ids beyond 32 bits read another cell; duplicate ids depend on the sort. C26: a one-cell domain loses its axis.
* C27: a guard wider than the margin may ask for re-extraction at every iteration.
* C29: a growth factor below 1 never reaches the end time. C30: dt_min and dt_max are not applied to the initial
  step, and growth wins over dt_min. C31: the CSV has no row for the initial condition.
* C34: explicitly stored zeros make `merge_csr_patterns` fail; unsorted rows are scattered to wrong slots.
* C35: chained and self pairings are accepted and give column -1. C36: disagreeing prescribed values within a class,
  and BCs passed at call time, are not checked.
* C37: UMFPACK is chosen for triangular storage; the SPD probe can be fooled. C38: a GMRES restart given with "auto" is dropped.
* C39: the elimination mode is ignored by linear and reduced solvers; the AMG rebuild path ignores the extra residual
  and the adjoint options; a direct adjoint with a Krylov forward and an extra residual gets a matrix-free operator.
* C40: systems with different patterns are solved with the first pattern. Nested vmap is a TypeError (not modelled).
* C42: a continuation step of the wrong sign moves away from its final value, even for a constant.
* C43: when the bisection does not run, `oc_update` returns its input unclipped.
* C44: a RoundoffLimited stop discards the call's progress; passive indices stay after a remesh with equal node count;
  the loop need not end if the optimiser returns without evaluating.
* C45: the density filter does not conserve mass; radius zero returns zero. C46: self-loops are lost.
* C47: parameter-dependent and contact loads are dropped from the tangent; the flag is shared between solvers.
* C48: the error text after a release advises a call that always raises. C50: unsorted active lists lose neighbours.
* C53: several blocks of one type: all but the last dropped. C54: `box_mesh` needs tags in order.
* C55: loads outside the band land on another node; unsorted active cells shift the design.
* C57: a negative target starts outside the bounds; a duplicate constraint name makes a history column too long.
* C58: `margin=0` fills the grid. C59: a flat domain's "coarse" level can be larger; a single level ignores `n_iter`.
* C60: with ties, or at the extremes, the share above the threshold misses the target.
* C61: `periodic_bc_3D` looks for faces and edges at the coordinates 0 and `L` instead of `lb` and `ub`; on the box [-3, 3]^3 with four nodes per axis nothing is found and only the corners are tied.
* C61: `UnitCell.mapping` translates by the difference of the centroids; one node per side at different heights is accepted and tied.
* C62: the length assertion of `cyclic_prolongation_matrix` compares the master list with itself, so an unmatched slave node is accepted and `M = N - vec * #slave` fails.
* C62: two masters of one slave node are accepted and one constraint is lost.
* C63: A single-variable problem that defines no volume term makes the volume kernel return the scalar 0 per cell, so the residual values and their scatter indices no longer line up when boundaries exist (outside the model).
* C64: `create_energy_fn` treats a 1-D volume variable with `num_cells` entries as cell-based before trying nodes, the assembler tries nodes first; on a mesh with as many cells as nodes the energy is not the potential of the residual.
* C65: `average_stress` reads a 1-D volume variable with `num_cells` entries as cell-based before trying nodes, the assembler tries nodes first: on a mesh with as many cells as nodes C_hom is averaged with other material values than the ones solved with.
* C65: The reduced solver returns no cotangent for its initial guess although the homogenization solution depends on it (`u_macro` is passed as the guess): differentiating a response with respect to the macroscopic strain or the node coordinates of the guess silently gives zero for that part.
* C66: `compute_directional_youngs_modulus` does not normalise its direction: [1,1,1] instead of the unit diagonal is off by a factor 9 (`C66_scaling`).
* C67: A slack initialised at zero has a zero gradient for ever: an inequality that is violated (or exactly active) at the start is silently enforced as an equality (`C67_violated_start_becomes_equality`, `C67_example_stuck`).
* C67: `combine(...)` zips parameters with constraints: missing parameters silently drop constraints from the loss (`C67_combine_drops_constraints`).
* C68: The trace of the mapped tensors exceeds the documented bound 1 by up to 1e-6 (2-D) or 2e-6 (3-D) (`C68_triangle_trace_refuted`, `C68_tetrahedron_documented_refuted`).
* C68: `orientation_tensor_3d` is not admissible for incompatible sign controls: (1, 1, -1) gives a negative eigenvalue at every design point (`C68_tensor_3d_not_admissible`).
* C68: `box_to_triangle` documents array inputs of any shape, but arrays fail except for length 1 and length 8, and length 8 gives a result independent of the input (`C68_array_inputs`).
* C69: `build_a4_2d` documents an exact contraction identity, but with any eps > 0 (the default is 1e-12) the deviatoric part is scaled by tau / (tau + eps) (`C69_build_contraction_refuted`).
* C70: An empty element (a2 = 0, a4 = 0) keeps the transverse stiffness of the lamina: the stiffness does not vanish with the fibre content although build_a4_2d is written for sub-normalised states (`C70_empty_is_stiff`, `C70_content`).
* C71: `bilinear_potential` computes delta_0 = 2 Gamma/(sigma_c delta_f), which is the number 1 for every material and unit of length (`C71_bilinear_elastic_limit`); the docstring's delta_0 = sigma_c/k_0 is delta_f itself. For sigma_c > 2 Gamma, as in the docstring values Gamma=15, sigma_c=20000, the energy rises to sigma_c/2 before dropping to Gamma at opening 1 (`C71_bilinear_overshoot`, `C71_bilinear_energy_refuted`).
* C71: unloading is a secant in the energy, not in the traction: at delta_max = delta_c the traction jumps from sigma_c to more than 1.3 sigma_c when unloading starts (`C71_unloading_traction_jump`), and closing the interface returns the whole energy, so the documented irreversibility dissipates nothing (`C71_no_dissipation`).
* C72: `CohesiveInterface` does not check that the normals have unit length (`C72_normals_not_checked`).
* C73: `create_dynamic_compliance_fn` zips surfaces with surface_vars, so missing surface variables silently drop loads (`C73_truncated`); loads defined by surface weak forms (multi-variable problems) or universal surface kernels give compliance zero without an error (`C73_without_maps`).
* C74: `create_volume_fn` tells the kind of array from its size only: with as many nodes as cells (a triangulation with two interior nodes) a cell density of volume fraction 1/9 is reported as 5/27 (`C74_ambiguous_refuted`).
* C75: The kernel of `get_extra_kernel` is half the derivative of the energy its docstring states: the effective coefficient is kr/2 (`C75_reg_energy`).
* C75: The energy density at rest is mu (2D without plane strain) or 3/2 mu, not zero: only differences of the energy are meaningful.
* C75: `create` treats any nonzero indicator as medium for the moduli while the kernel multiplies by its value.
* C76: Only the eight nearest element centroids are tried: a point well inside a large element next to small ones gets the value of the nearest node instead of the interpolated value (`C76_missed_refuted`).
* C76: Without `clip` a density can exceed 1 by the containment tolerance (`C76_overshoot_refuted`).
* C77: `gradient_refinement` stores the element edges as rows and multiplies by the transposed inverse; the gradient is the untransposed product. On a conforming two-element mesh the density y gets values 1/sqrt(2) and 1 (`C77_linear_refuted`).
* C77: A refinement field equal to 1 everywhere is treated as uniform and meshes at h_max (`C77_size_uniform_refuted`).
* C78: `max_retries` is documented as the maximum number of generation attempts; there is one more (`C78_attempts_refuted`), and the last mesh is returned even if an earlier one was closer to the target (`C78_best_refuted`).
* C78: The face tolerance 1e-6 is absolute: for a smaller box no periodic pair is set, silently (`C78_small_box_refuted`).
* C78: `_extract_tet4` discards the node tags and assumes them to be 1..N in order (`C78_tags_refuted`).
* C79: Bounds of an intersection of disjoint solids are reversed (lower corner above the upper one), silently (`C79_disjoint_refuted`).
* C80: With `close_boundary` a point outside the mesh and its bounding box can still be solid: every element is extended by up to half its size (`C80_outside_refuted`).
* C80: `cells[:, re_order]` is used as Basix node order, which needs the inverse permutation. The table is its own inverse only for linear elements; for TET10, HEX20, QUAD8, QUAD9 and TRI6 nodes are paired with wrong shape functions (`C80_node_order_refuted`).
* C80: Not turned into theorems: the batch Newton inverse has no convergence check while the single one returns None; `to_mesh` needs 3D bounds, so 2D fields fail.
* C81: With `n_fill = 0` the outer shell silently absorbs the gap: its thickness is shell_t + gap (`C81_no_fill_refuted`).
* C81: For an odd number of columns the pinned nodes A and B are not diametrically opposite as documented (`C81_opposite_refuted`); the constraints still remove the rigid motions.
* C82: A layup kind other than "hoop" (for example "Hoop") is silently wound helically (`C82_kind_refuted`).
* C87: `profile_solver_py` never tests the state after its last update: a run reported as not converged can return an exact solution, and its last recorded norm is not that of the returned state (`C87_unreported_refuted`).
* C87: `time_fn` with `warmup=0, n_runs=0` raises (the result name is never bound).
* C88: With fewer positive modes than requested the host backends give not-a-number cotangents on every free slot, even if the loss ignores the padded factors; the device backend guards against it (`C88_padding`).
* C88: With fewer than num_modes + 7 free degrees of freedom the sparse solver asks ARPACK for k = nf - 2 pairs with ncv = nf - 1, which SciPy rejects (it needs k + 1 < ncv); the `ValueError` reaches the user although the modes exist (`C88_small_refuted`).
* C88: The sparse solver asks for the largest |mu| only: when at least min(num_modes+4, nf-2) negative factors are smaller in magnitude it reports failure (or, without the check, nothing) although positive factors exist (`C88_missed_refuted`).
* C88: The matrix-free solver builds min(num_matvecs, nf-1) Krylov columns, so it can never return all nf modes, and with num_matvecs below num_modes it silently returns fewer modes than requested (`C88_matfree_short_refuted`)
* C89: A location function inside the body selects each face from both cells, so a load given there acts twice (`C89_interior_twice`).
* C89: Second derivatives neglect the curvature of the mapping: on a distorted quadrilateral the linear field u = x gets a mixed second derivative of 1 (`C89_curved_refuted`).
* C89: Surface weights of inverted cells are negative (`C89_area`).
* C90: The documented preset "auto" of build_amg_preconditioner is refused (`C90_presets`).
* C90: Three-dimensional meshes with all nodes on a line parallel to x get a zero column (`C90_line`).
* C91: A refused write leaves the frame's group behind without advancing the frame number, so every later write of the session is refused, even correct ones (`C91_blocked`).
* C91: A field with 4, 5, 7 or 8 components is accepted frame after frame, but the index of the whole series is then never written (`C91_components_refuted`).
* C91: Entering a writer again truncates the data file while the old index stays until exit, so a crash leaves an index of vanished arrays; the names of the first session bind the second (`C91_reenter_refuted`).
* C91: QUAD8 meshes are labelled hexahedra, QUAD9 refused, QUAD4 meshes in space labelled tetrahedra (`C91_labels`).
* C92: Iteration count and residual are computed but dropped by the differentiable solve, so a solve that hit the cap is returned as if it had converged (`C92_design_solve` only speaks about k < maxit).
* C92: Pre- and post-smoothing sweep the colours in the same order, so the V-cycle is not a symmetric preconditioner; nothing here depends on it, and convergence is not proved.
* C93: The filter does not keep densities in [0, 1]: on one obtuse triangle a density of 1 at one corner and 0 elsewhere filters to -1/23 at another (`C93_bounds_refuted`). The distance-based filter does (C45).
* C93: Quadratic meshes and shell quadrilaterals in space are taken for TRI3/TET4 (`C93_element_type`).
* C93: With as many nodes as cells the kernel receives arrays instead of numbers (`C93_source`, C20).
* C94: The `port` of the cluster file is exported as JAX_COORD_PORT but `initialize` always connects to port 1234 (C94_port_refuted).
* C94: Script arguments reach the coordinator only: workers run `python3 -` with the script on standard input (C94_arguments_refuted, for every configuration).
* C94: A failure while starting a worker leaves the earlier workers running with nobody waiting for them (C94_crash); worker exit codes are never looked at.
* C94: Container names and addresses go unquoted into a remote shell command (C94_blank_refuted).
* C95: The matrix-free extra-residual path accepts UPPER/LOWER storage and then multiplies with the stored triangle only (C95_triangular_refuted); the assembled path rejects it.
* C96: newton.py:358: `lin_res > lag_tol` is False for NaN, so an adaptive run keeps a hierarchy whose solve broke down and stops unconverged (C96_nan_refuted).
* C97: cylinder_mesh(axis=(0, 0, -1)) builds the cylinder along +z: the cross product with z vanishes and the rotation is skipped (C97_downward_refuted).
* C97: count_selected_faces documents a function of the face centroid and boundary faces; it tests every node of the face and counts interior faces once per cell (C97_interior_refuted).
* C97: check_mesh_TET4 documents signed volumes but returns six times them.
* C98: check_convergence adds 1e-12 to |b|: for |b| < threshold * 1e-12 the zero vector is always accepted (C98_small_refuted).
* C98: The cuDSS closure keeps the pattern of its first call; a later matrix with another pattern is silently solved with the first pattern (C98_closure_refuted).
* C98: check_convergence is imported by newton.py but never called there: the option has no effect on Newton increments.
* C99: The index cache of the host backends is shared between eager and compiled calls: an eager call with another sparsity pattern silently changes the result of a function compiled earlier (C99_cache_refuted).
* C99: The cudss backend symmetrises by a permutation that assumes structural symmetry; for other patterns values of unrelated entries are averaged (C99_unsymmetric_refuted).
* C99: The cudss backend keeps the slots of its first call: later calls with another pattern reuse them silently.
* C100: pseudo_time on a transient problem silently drops the history terms (documented; quantified by C100_transient_refuted).
* C101: An array whose row count equals both the full and the reduced number of unknowns is always treated as full.
* C101: The docstring's exactness covers periodic modes only: rigid rotations become class averages that are no longer null vectors (C101_rotation_refuted).
* C102: refine_mesh does not convert between feax/meshio and Gmsh node order: a straight ten-node tetrahedron reaches Gmsh with its last two mid-edge nodes swapped (C102_tet10_refuted), contrary to the docstring's note that the orders match.
* C103: box_mesh(0.3, mesh_size=0.1) makes two elements per side, not three: int(0.3/0.1) is 2 (C103_float_refuted).
* C103: Elements are never smaller than mesh_size and can be almost twice as long (C103_target_refuted).
* C104: extract_volume_mesh and SDF.to_volume_mesh have no try/finally: a failing mesh generation leaves the Gmsh session open and a temporary file on disk (C104_leak_refuted).
* C104: After such a failure the next box_mesh runs with the leaked options, e.g. second-order elements (C104_inherit_refuted).
* C104: An interrupt between gmsh.initialize() and try leaves the session open (C104_interrupt_refuted).
* C105: The shared dict has no lock: two concurrent solves with the same pattern and different values can both return the solution of one of them (C105_values_refuted).
* C105: Two concurrent solves with different patterns can leave the pattern of one beside the factor of the other, so that a later valid solve fails (C105_poison_refuted).
* C106: Problem(mesh=[...], ...) with the default ele_type indexes the string 'HEX8' by variable, so variable 0 gets the element type 'H' and construction fails (C106_lists).
* C108: from_vtk cannot use a plane mesh saved by save_sol: the VTU format stores three coordinates per point, and the two-dimensional cell maps cannot be inverted (C108_plane).
* C108: A QUAD8 field is read back as HEX8 (C108_type_refuted).
* C109: [operator_assembler] and [sparse_jacobian_fn] with a user pattern do not check that the operator lies inside the pattern; an entry outside is added to the in-pattern entry of the same row and colour (`C109_outside_refuted`).
* C110: the property needs no accuracy from the quadrature on simplices, equal integrals of the four bilinear functions on QUAD4, and exactness for products of two linear functions per axis on HEX8 (met by the default orders).
* C111: Floating-point sums are not associative, so in the program the renumbered result agrees up to rounding; the theorem is over exact coefficient rings. The upper and lower views keep different entries after renumbering, which is why the tangent statement is restricted to entries kept by both.
* C112: The guess of the adjoint solve (linear.py:98-100) is exact at constrained unknowns only under symmetric elimination (C112_adjoint_refuted); elsewhere it only affects the number of iterations.
* C112: create_x0 with a prolongation matrix scales the guess by the number of constrained full unknowns tied to the same reduced unknown (C112_reduced_refuted); a converged solve is unaffected.
* C112: The algebraic multigrid branch (newton.py:710) starts from zero and its preconditioner need not keep zeros, so it is outside this statement.
* C119: Solution.node_var(var_index=-1) raises IndexError while TracedParams.node_var_from_solution(var_index=-1) returns the last variable (C119_negative_refuted)
* C119: on a mesh with as many cells as nodes the chained field is silently taken as per-cell values (C119_ring_refuted)
* C122: With line_search_c1 above one half the full Newton step of a linear problem is rejected although it is exact (C122_half_refuted); the option is not validated.
* C125: time_solver.py:541: in binary64 the slack 1e-14*dt is below the rounding error of the accumulated time: the documented example dt=1e-5, t_end=1e-2 takes 1001 steps instead of 1000, the last one of size 2.4e-16 (C125_extra_step_refuted). A time integrator dividing by dt is called with that size.
* C125: time_solver.py:541-547: if dt is below half the spacing of the numbers at t (default dt_min=1e-12 at t=1e5), t += dt_eff leaves t unchanged and the loop never ends (C125_stall_refuted).
* C128: create_node_var_from_fn is exact only for affine functions; create_spatially_varying_volume_var ignores var_index and always uses the points of variable 0.
* C129: In two dimensions face_mask marks the interior nodes of the cell: a face is defined by N-2 coordinates on the box, which is none.
* C12: DirichletBCConfig.add takes no variable index, so a chain of add calls on a problem with several variables constrains the same nodes and components of each of them (C12_fluent_variable_refuted); a restriction needs DirichletBCSpec(variable_index=...).
* Read in the code, no theorem: prolongation_matrix (flat/pbc.py:136) overwrites its documented argument `offset` with 0; SKSPARSEOptions documents order=None but its validation refuses it.
* C107: basis.py:73, 98 create QUAD8 and HEX20 from Basix's serendipity family, whose published edge coefficients are means over the edge and not midpoint values. The mesh and the boundary conditions use them as values at midside nodes; C107_midside says when that is right (kappa = 1) and what the field's value there is otherwise. Loads and linear fields are right in both cases.
* C117: basis.py:76, 101: the default quadrature order 2 (two Gauss points per axis; the comment at line 76 says six and full integration) is reduced integration for QUAD8 and HEX20: a single supported cell has a displacement without strain at any rule point (C117_reduced_refuted). Scalar problems are not affected on QUAD8 (C117_conduction). A user who passes gauss_order 0 or 1 with QUAD4 gets a field the rule does not see (C117_one_point_refuted).
