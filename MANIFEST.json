{
 "claims": [
  {
   "property": "C01",
   "status": "proved",
   "theorems": [
    "C01_pattern_valid",
    "C01_slot_map",
    "C01_diag_slots"
   ],
   "note": "Pattern of the model problem: row pointers, exactly the coupled and kept pairs, (row, col) order, entry-to-slot maps, diagonal slots."
  },
  {
   "property": "C02",
   "status": "proved",
   "theorems": [
    "C02_assembled_sum",
    "C02_value_paths"
   ],
   "note": "Dense form of the assembled matrix is the elementwise sum; stated for the path that does not skip surface tangents (see C47 for the skip)."
  },
  {
   "property": "C03",
   "status": "proved",
   "theorems": [
    "C03_batch_independent",
    "C03_equals_plain_scatter"
   ],
   "note": "Results do not depend on the batch size and equal one plain scatter."
  },
  {
   "property": "C04",
   "status": "proved",
   "theorems": [
    "C04_fused",
    "C04_flag_mismatch_refuted"
   ],
   "note": "Holds when the skip flag is clear or the surface tangent is zero; C04_flag_mismatch_refuted shows the paths differ when the flag is set wrongly."
  },
  {
   "property": "C05",
   "status": "proved",
   "theorems": [
    "C05_residual_sum"
   ],
   "note": "Residual is the sum of cell and face blocks; untouched DOFs get 0."
  },
  {
   "property": "C06",
   "status": "proved",
   "theorems": [
    "C06_transpose_maps",
    "C06_structural_symmetry",
    "C06_adjoint"
   ],
   "note": "Explicit transpose from the compiled maps, structural-symmetry flag, adjoint identity."
  },
  {
   "property": "C07",
   "status": "proved",
   "theorems": [
    "C07_ops_dense"
   ],
   "note": "matvec, rmatvec, diagonal, todense of any valid CSR triple."
  },
  {
   "property": "C08",
   "status": "proved",
   "theorems": [
    "C08_triangular_assembly",
    "C08_view_product"
   ],
   "note": "Triangular assembly stores exactly the triangle; view-aware product equals the full product for symmetric matrices."
  },
  {
   "property": "C09",
   "status": "proved",
   "theorems": [
    "C09_elimination",
    "C09_problem",
    "C09_orphan_dof_refuted"
   ],
   "note": "Under the stored-diagonal guard, at pattern and at problem level; C09_orphan_dof_refuted is the counterexample without it."
  },
  {
   "property": "C10",
   "status": "proved",
   "theorems": [
    "C10_preserves_symmetry",
    "C10_idempotent",
    "C10_values_ignored",
    "C10_replace_vals",
    "C10_triangular"
   ],
   "note": "Symmetry, idempotence, independence of the values, replace_vals, and commutation with the triangular views."
  },
  {
   "property": "C11",
   "status": "proved",
   "theorems": [
    "C11_residual_rows",
    "C11_zero_iff"
   ],
   "note": "Rows, free entries, and vanishing iff the values are met and the free residual is zero."
  },
  {
   "property": "C12",
   "status": "proved",
   "theorems": [
    "C12_fluent",
    "C12_fluent_variable_refuted",
    "C12_pytree",
    "C12_create_bc",
    "C12_errors",
    "C12_component_names"
   ],
   "note": "Row set, mask, first-spec-wins values, exact error condition, component names; chains of add calls, and that what they constrain in one variable they constrain in all (C12_fluent_variable_refuted: no restriction to one variable is possible that way); pytree round trip of the compiled conditions."
  },
  {
   "property": "C13",
   "status": "proved",
   "theorems": [
    "C13_matrix_free",
    "C13_triangular_refuted"
   ],
   "note": "FULL view; AD product modelled by the linearised kernels. C13_triangular_refuted for triangular views."
  },
  {
   "property": "C14",
   "status": "proved",
   "theorems": [
    "C14_direct",
    "C14_krylov",
    "C14_default_call",
    "C14_x0",
    "C14_override_refuted",
    "C14_warm_start",
    "C14_call"
   ],
   "note": "Exact linear solve on the one call as hypothesis; direct (full storage) and Krylov, both elimination modes; C14_override_refuted: overriding the BC without a guess under symmetric elimination."
  },
  {
   "property": "C15",
   "status": "proved",
   "theorems": [
    "C15_direct",
    "C15_krylov",
    "C15_triangular_refuted"
   ],
   "note": "Exact adjoint solve as hypothesis; direct with full storage, Krylov with a symmetric free block or row elimination; C15_triangular_refuted for triangular views."
  },
  {
   "property": "C16",
   "status": "proved",
   "theorems": [
    "C16_krylov_symmetric",
    "C16_direct",
    "C16_krylov_unsymmetric",
    "C16_transpose_iff",
    "C16_unsymmetric_refuted",
    "C16_values_refuted"
   ],
   "note": "Necessary and sufficient condition (C16_transpose_iff), exact parameter gradients under it; C16_unsymmetric_refuted and C16_values_refuted for what fails."
  },
  {
   "property": "C17",
   "status": "proved",
   "theorems": [
    "C17_first_acceptable",
    "C17_success",
    "C17_simple_search",
    "C17_fallback_refuted"
   ],
   "note": "Exact rationals with IEEE infinities/NaN (no rounding, no overflow). C17_success: largest acceptable step, finite and strictly smaller norm; C17_fallback_refuted: the failure fallback step can increase the norm."
  },
  {
   "property": "C18",
   "status": "proved",
   "theorems": [
    "C18_stopping_test",
    "C18_reported_flag",
    "C18_loop",
    "C18_monotone",
    "C18_outcome",
    "C18_nan_start_refuted",
    "C18_host_loop",
    "C18_hybrid_returns"
   ],
   "note": "Traced while_loop and both host loops. C18_nan_start_refuted: a NaN initial residual returns the guess silently; C18_hybrid_returns: UnboundLocalError for max_iter = 0."
  },
  {
   "property": "C19",
   "status": "proved",
   "theorems": [
    "C19_pytree",
    "C19_replace_volume",
    "C19_replace_surface",
    "C19_default"
   ],
   "note": "Container laws for every shape; Python index rule stated by index_of."
  },
  {
   "property": "C20",
   "status": "proved",
   "theorems": [
    "C20_kinds",
    "C20_fallback",
    "C20_list",
    "C20_node",
    "C20_node_vector",
    "C20_cell",
    "C20_quad",
    "C20_energy",
    "C20_uniform",
    "C20_solution",
    "C20_ambiguous_refuted",
    "C20_no_rejection_refuted"
   ],
   "note": "Node (scalar and vector), cell, quadrature layouts, energy agreement, uniform constructors, Solution chaining. num_cells = num_nodes and unrecognised shapes: refuted with witnesses."
  },
  {
   "property": "C21",
   "status": "proved",
   "theorems": [
    "C21_numbering_bijective",
    "C21_field",
    "C21_fields_tile",
    "C21_node_var",
    "C21_assembly_gather"
   ],
   "note": "Numbering bijective; field, node_var and unflatten agree with the assembly numbering; error branches."
  },
  {
   "property": "C22",
   "status": "proved",
   "theorems": [
    "C22_cell_ids",
    "C22_node_ids",
    "C22_corners",
    "C22_sharing",
    "C22_orientation",
    "C22_centroid",
    "C22_nodes_where"
   ],
   "note": "Grid_Props.v; exact over Z, corner order checked against HEX8 orientation, centroid over Q."
  },
  {
   "property": "C23",
   "status": "proved",
   "theorems": [
    "C23_point_cells",
    "C23_voxelize",
    "C23_fit_h",
    "C23_fit_align",
    "C23_fit_dims_max_refuted",
    "C23_fit_dims",
    "C23_fit_pad0_refuted",
    "C23_voxelize_mesh"
   ],
   "note": "Points, spacing and origin are rationals; float rounding in floor((p-o)/h) is not modelled. Full fit() claim refuted for dims mode and for zero padding; guarded claim proved."
  },
  {
   "property": "C24",
   "status": "proved",
   "theorems": [
    "C24_dilate",
    "C24_extensive",
    "C24_monotone",
    "C24_compose"
   ],
   "note": "Proved in Grid_Props.v. Modelled: `dilate_cells`."
  },
  {
   "property": "C25",
   "status": "proved",
   "theorems": [
    "C25_sparse_design",
    "C25_uniform",
    "C25_int32_refuted",
    "C25_duplicates_refuted"
   ],
   "note": "For every sorting routine (numpy argsort unspecified on ties); guards int32/distinct ids shown necessary by refutations."
  },
  {
   "property": "C26",
   "status": "proved",
   "theorems": [
    "C26_submesh",
    "C26_sol_round_trip",
    "C26_sol_gather",
    "C26_cells_round_trip",
    "C26_one_cell_refuted",
    "C26_params",
    "C26_params_counts_refuted",
    "C26_grid_domain",
    "C26_from_field"
   ],
   "note": "Submesh, solution, cell and parameter transfers, from_field; guards shown necessary."
  },
  {
   "property": "C27",
   "status": "proved",
   "theorems": [
    "C27_superset",
    "C27_rebuild",
    "C27_contains_active",
    "C27_guard_refuted",
    "C27_grid_ring"
   ],
   "note": "Histories of the documented re-extract loop; guard<=margin shown necessary."
  },
  {
   "property": "C28",
   "status": "proved",
   "theorems": [
    "C28_rectangle",
    "C28_nodes",
    "C28_edges",
    "C28_tiling"
   ],
   "note": "QUAD4, QUAD8, QUAD9; coordinates over Q."
  },
  {
   "property": "C29",
   "status": "proved",
   "theorems": [
    "C29_lands_on_t_end",
    "C29_times_increase",
    "C29_fixed_steps",
    "C29_adaptive_terminates",
    "C29_shrinking_never_ends_refuted"
   ],
   "note": "Exact rational time; float rounding of t += dt not modelled. Non-termination for growth_factor < 1 proved (refuted variant)."
  },
  {
   "property": "C30",
   "status": "proved",
   "theorems": [
    "C30_next_dt",
    "C30_run",
    "C30_initial_dt_refuted",
    "C30_below_dt_min_refuted"
   ],
   "note": "Statement amended: bounds are not applied to the initial dt (two refuted variants)."
  },
  {
   "property": "C31",
   "status": "proved",
   "theorems": [
    "C31_saves",
    "C31_history",
    "C31_callbacks",
    "C31_csv_row0_refuted"
   ],
   "note": "Saved steps, history, CSV and callbacks of every completed run, with the states they show. CSV lacks step 0 (refuted variant)."
  },
  {
   "property": "C32",
   "status": "proved",
   "theorems": [
    "C32_prolongation",
    "C32_restriction",
    "C32_coarse_density"
   ],
   "note": "Any grid dims, active cells, number of levels; weights exact rationals. Padding to buckets and the free mask between levels not modelled here."
  },
  {
   "property": "C33",
   "status": "proved",
   "theorems": [
    "C33_sweep",
    "C33_colours",
    "C33_sequential",
    "C33_exact"
   ],
   "note": "Any commutative ring; the 3x3 block inverse is a hypothesis (numpy's inv), element matrix symmetric."
  },
  {
   "property": "C34",
   "status": "proved",
   "theorems": [
    "C34_union",
    "C34_total",
    "C34_explicit_zero_refuted",
    "C34_sum",
    "C34_unsorted_refuted",
    "C34_bulk_plus_extra",
    "C34_producer",
    "C34_reduced_pattern",
    "C34_verify"
   ],
   "note": "Pattern union, slot maps, transpose maps, detected-Jacobian placement, reduced pattern and verification; refuted for explicit zeros and unsorted rows. scipy operations modelled by their documented result."
  },
  {
   "property": "C35",
   "status": "proved",
   "theorems": [
    "C35_accepted_iff",
    "C35_columns",
    "C35_valid_columns_iff",
    "C35_range",
    "C35_chain_accepted_refuted",
    "C35_self_pairing_accepted_refuted"
   ],
   "note": "Acceptance characterised; columns valid iff no master is a slave; range of P is the set of vectors satisfying all pairings. Silent acceptance of chained or self pairings is refuted (negative column)."
  },
  {
   "property": "C36",
   "status": "proved",
   "theorems": [
    "C36_prolongation_is_master_slave",
    "C36_check_iff",
    "C36_rejects_iff",
    "C36_symmetric",
    "C36_values",
    "C36_solves",
    "C36_gradient",
    "C36_disagreeing_values_refuted",
    "C36_override_unchecked_refuted"
   ],
   "note": "Check = whole classes; reduced operator symmetric; solution = guess + periodic correction, values attained where (value - guess) agrees on each class (always for the default guess); class residuals vanish; parameter gradient exact. Refuted for disagreeing values (average) and for BCs overridden at call time (unchecked)."
  },
  {
   "property": "C37",
   "status": "proved",
   "theorems": [
    "C37_constructed",
    "C37_auto",
    "C37_explicit",
    "C37_view",
    "C37_view_refuted",
    "C37_detect_symmetric",
    "C37_detect_refuted"
   ],
   "note": "Full for the selection logic; library semantics of the backends (which triangle they read) is a modelling assumption, stated in Options_Model.factorised. View and detection guards refuted where the code violates the original claim."
  },
  {
   "property": "C38",
   "status": "proved",
   "theorems": [
    "C38_auto",
    "C38_restart_refuted",
    "C38_preconditioner"
   ],
   "note": "Exact; restart loss refuted."
  },
  {
   "property": "C39",
   "status": "proved",
   "theorems": [
    "C39_routes",
    "C39_accepts",
    "C39_rejects",
    "C39_elimination_refuted",
    "C39_amg_refuted",
    "C39_extra_direct_adjoint_refuted",
    "C39_reduced_ignores_linear"
   ],
   "note": "Acceptance is an iff with a separate predicate; routing theorem; four refutations of dropped settings."
  },
  {
   "property": "C40",
   "status": "proved",
   "theorems": [
    "C40_block_diagonal",
    "C40_batched",
    "C40_vmap",
    "C40_rejects",
    "C40_heterogeneous_refuted"
   ],
   "note": "Batched direct solve via block-diagonal assembly, batching rule and vmap; heterogeneous patterns refuted outside the guard."
  },
  {
   "property": "C41",
   "status": "proved",
   "theorems": [
    "C41_cache"
   ],
   "note": "Factorisation cache answers every request history like fresh solves, for any registry of solver keys."
  },
  {
   "property": "C42",
   "status": "proved",
   "theorems": [
    "C42_initial",
    "C42_changes_at_multiples",
    "C42_formula",
    "C42_clamped",
    "C42_monotone",
    "C42_reaches_final",
    "C42_wrong_sign_refuted",
    "C42_constant_drifts_refuted",
    "C42_wrong_sign",
    "C42_zero_period"
   ],
   "note": "Q arithmetic; Z iterations including negative ones."
  },
  {
   "property": "C43",
   "status": "proved",
   "theorems": [
    "C43_terminates",
    "C43_box_and_move",
    "C43_box",
    "C43_unclipped_refuted",
    "C43_bracket",
    "C43_volume",
    "C43_volume_monotone"
   ],
   "note": "Proved in Oc_Props.v. Modelled: bisection loop. Counterexamples to the unguarded claim: C43_unclipped_refuted."
  },
  {
   "property": "C44",
   "status": "proved",
   "theorems": [
    "C44_budget",
    "C44_evaluations",
    "C44_parameters",
    "C44_not_stale",
    "C44_terminates",
    "C44_remesh",
    "C44_final_parameters",
    "C44_passive",
    "C44_passive_stale_refuted",
    "C44_returned_design",
    "C44_roundoff_discards_refuted",
    "C44_stall_refuted",
    "C44_zero_period"
   ],
   "note": "NLopt is an arbitrary environment (list of evaluated points and result per call); file output and printing not modelled."
  },
  {
   "property": "C45",
   "status": "proved",
   "theorems": [
    "C45_formula",
    "C45_linear",
    "C45_bounds",
    "C45_constant",
    "C45_mass_uniform",
    "C45_mass_refuted",
    "C45_zero_radius_refuted",
    "C45_unknown_weight"
   ],
   "note": "Proved in DensFilter_Props.v. Modelled: weighted average. Counterexamples to the unguarded claim: C45_mass_refuted, C45_zero_radius_refuted."
  },
  {
   "property": "C46",
   "status": "proved",
   "theorems": [
    "C46_adjacency",
    "C46_inferred_size",
    "C46_edges",
    "C46_round_trip_edges",
    "C46_round_trip_matrix",
    "C46_same_lattice",
    "C46_self_loop_refuted"
   ],
   "note": "All statements for graphs of every size over rational coordinates; sizes of the static jit padding (nonzero size=) modelled by where_sized. Self-loops proved lost (C46_self_loop_refuted)."
  },
  {
   "property": "C47",
   "status": "proved",
   "theorems": [
    "C47_dead_loads",
    "C47_linear_loads_same_params",
    "C47_not_skipped",
    "C47_parameter_refuted",
    "C47_contact_refuted",
    "C47_shared_flag_refuted"
   ],
   "note": "Dead loads, linear loads at the same parameters, and the never-detected case proved for every problem; the general claim is refuted by three concrete problems (parameter, contact, shared flag). Probe values abstract except in the examples."
  },
  {
   "property": "C48",
   "status": "proved",
   "theorems": [
    "C48_never_wrong",
    "C48_with_structure",
    "C48_without_structure",
    "C48_reference",
    "C48_rebuild_advice_refuted"
   ],
   "note": "State machine over all histories on top of the assembly model; other leaves of a TracedStructure are copies of arrays never released and are read from the problem."
  },
  {
   "property": "C49",
   "status": "proved",
   "theorems": [
    "C49_supported",
    "C49_permutation",
    "C49_layout",
    "C49_reorder_round_trip",
    "C49_faces",
    "C49_out_of_range"
   ],
   "note": "Tables checked against the two conventions written independently; conversion theorems hold for every index list. Third-party layouts are a specification, not derived."
  },
  {
   "property": "C50",
   "status": "proved",
   "theorems": [
    "C50_full_grid",
    "C50_support",
    "C50_sign",
    "C50_uniform",
    "C50_no_radius",
    "C50_unsorted_refuted"
   ],
   "note": "Proved in SensFilter_Props.v. Modelled: band filter with searchsorted. Counterexamples to the unguarded claim: C50_unsorted_refuted."
  },
  {
   "property": "C51",
   "status": "proved",
   "theorems": [
    "C51_initial_guess"
   ],
   "note": "Zero on free DOFs, prescribed on constrained ones, zero first BC residual."
  },
  {
   "property": "C52",
   "status": "proved",
   "theorems": [
    "C52_linear",
    "C52_quadrature"
   ],
   "note": "Linear and quadrature cases for all operators and polynomials."
  },
  {
   "property": "C53",
   "status": "proved",
   "theorems": [
    "C53_explicit",
    "C53_unique_block",
    "C53_auto",
    "C53_blocks_refuted",
    "C53_type_names"
   ],
   "note": "Guard (one block per type) shown necessary by C53_blocks_refuted."
  },
  {
   "property": "C54",
   "status": "proved",
   "theorems": [
    "C54_refine_readback",
    "C54_box_readback",
    "C54_box_order_refuted"
   ],
   "note": "Gmsh itself is not modelled: its returned tags, coordinates and elements are inputs."
  },
  {
   "property": "C55",
   "status": "proved",
   "theorems": [
    "C55_layout",
    "C55_load_vector",
    "C55_outside_refuted",
    "C55_order_refuted",
    "C55_auto_levels",
    "C55_cap"
   ],
   "note": "auto_levels is modelled with a fuel bound shown to suffice."
  },
  {
   "property": "C56",
   "status": "proved",
   "theorems": [
    "C56_centroid",
    "C56_refused",
    "C56_membership",
    "C56_segment_distance",
    "C56_density",
    "C56_density_nodal"
   ],
   "note": "Distances compared squared over Q (the code compares Euclidean distances in floating point)."
  },
  {
   "property": "C57",
   "status": "proved",
   "theorems": [
    "C57_constraints",
    "C57_gradient",
    "C57_default_density",
    "C57_start_in_bounds",
    "C57_start_out_of_bounds_refuted",
    "C57_history",
    "C57_history_duplicate_refuted"
   ],
   "note": "Compiled functions are arbitrary; dir() order is the order of the list."
  },
  {
   "property": "C58",
   "status": "proved",
   "theorems": [
    "C58_band",
    "C58_no_margin",
    "C58_solver_current",
    "C58_densities",
    "C58_completes",
    "C58_outside"
   ],
   "note": "Proved in NbLoop_Props.v. Modelled: `run_narrowband_oc` loop with abstract solver."
  },
  {
   "property": "C59",
   "status": "proved",
   "theorems": [
    "C59_ladder",
    "C59_coarsening",
    "C59_flat_domain_refuted",
    "C59_plan",
    "C59_single_level_refuted"
   ],
   "note": "Proved in NbLoop_Props.v. Modelled: ladder and iteration plan of `run_narrowband_multires`. Counterexamples to the unguarded claim: C59_flat_domain_refuted, C59_single_level_refuted."
  },
  {
   "property": "C60",
   "status": "proved",
   "theorems": [
    "C60_projection",
    "C60_fraction",
    "C60_ties_refuted",
    "C60_exact_refuted"
   ],
   "note": "Proved in Threshold_Props.v. Modelled: `heaviside_projection`, sorted-quantile threshold. Counterexamples to the unguarded claim: C60_ties_refuted, C60_exact_refuted."
  },
  {
   "property": "C61",
   "status": "proved",
   "theorems": [
    "C61_corner_selector",
    "C61_2D",
    "C61_3D",
    "C61_3D_shifted_refuted",
    "C61_2D_mismatched_sides_refuted"
   ],
   "note": "Proved in Select_Props.v, UnitCell_Props.v. Modelled: `UnitCell` predicates with `isclose`, centroid `mapping`, `periodic_bc_2D/3D`, composed with `prolongation_matrix`; integer coordinates in an arbitrary unit. Counterexamples to the unguarded claim: C61_3D_shifted_refuted, C61_2D_mismatched_sides_refuted."
  },
  {
   "property": "C62",
   "status": "proved",
   "theorems": [
    "C62_accepted_iff",
    "C62_range",
    "C62_columns",
    "C62_unmatched_slave_refuted",
    "C62_two_masters_refuted"
   ],
   "note": "Proved in Cyclic_Props.v. Modelled: `cyclic_prolongation_matrix` row by row. Counterexamples to the unguarded claim: C62_unmatched_slave_refuted, C62_two_masters_refuted."
  },
  {
   "property": "C63",
   "status": "proved",
   "theorems": [
    "C63_volume_geometry",
    "C63_surface_geometry",
    "C63_composition",
    "C63_rejected"
   ],
   "note": "Proved in KernelGeom_Props.v, Kernel_Props.v. Modelled: geometry tables of `FiniteElement`, node concatenation of the variables, `Operator.eval/grad/integrate_*`, all five kernel builders and the composition rules, connected to the assembly model of C02-C05; `det`, `inv`, `norm` are oracles."
  },
  {
   "property": "C64",
   "status": "proved",
   "theorems": [
    "C64_affine_gradient",
    "C64_translation",
    "C64_energy_gradient"
   ],
   "note": "Proved in Kernel_Props.v. Modelled: `create_energy_fn` at given quadrature values of the volume variables, `shape_grads`; differentiation is a first-order expansion with a step t (dual numbers in the example)."
  },
  {
   "property": "C65",
   "status": "proved",
   "theorems": [
    "C65_hill_mandel",
    "C65_symmetric",
    "C65_unique",
    "C65_krylov_responses",
    "C65_direct_responses",
    "C65_paths_agree",
    "C65_homogeneous",
    "C65_direct_adjoint",
    "C65_pairings_componentwise"
   ],
   "note": "Proved in Homog_Props.v. Modelled: `macro_displacement`, `average_stress`, the unit strains, both solve paths on the reduced operator of C36 and the element kernels of C63, `_translation_pin_dofs`, `_zero_mean`, `_solve_bwd`; exact linear solves and exact element tangents are hypotheses, the quadrature values of the volume variables are given."
  },
  {
   "property": "C66",
   "status": "proved",
   "theorems": [
    "C66_tension_test",
    "C66_isotropic",
    "C66_scaling",
    "C66_sphere_isotropic",
    "C66_sphere_cells"
   ],
   "note": "Proved in Young_Props.v. Modelled: the Voigt-to-tensor scatter loop with its four writes, both einsums, the reciprocal; the direction grid and quad connectivity of the sphere; matrix inverse, reciprocal, sine and cosine are inputs constrained by their defining identities."
  },
  {
   "property": "C67",
   "status": "proved",
   "theorems": [
    "C67_prepare_update",
    "C67_descent_ascent",
    "C67_trained_function",
    "C67_gradient",
    "C67_stationary_points",
    "C67_ascent",
    "C67_inequality_start",
    "C67_zero_infeasibility_is_feasible",
    "C67_combine",
    "C67_combine_drops_constraints",
    "C67_zero_slack_is_stuck",
    "C67_violated_start_becomes_equality",
    "C67_equality_start"
   ],
   "note": "Proved in Mdmm_Props.v. Modelled: trees with marked multipliers, `prepare_update`, `eq`, `ineq`, `combine` with `zip` truncation; `optax.sgd`/`apply_updates` as in the usage example; differentiation by evaluating the same model on dual numbers; default reduction `np.sum`; broadcasting of mismatched multiplier shapes is not modelled."
  },
  {
   "property": "C68",
   "status": "proved",
   "theorems": [
    "C68_triangle",
    "C68_triangle_corners",
    "C68_triangle_trace_refuted",
    "C68_array_inputs",
    "C68_tetrahedron",
    "C68_tetrahedron_documented_refuted",
    "C68_smooth_sgn",
    "C68_tensor_2d",
    "C68_tensor_3d",
    "C68_tensor_3d_not_admissible"
   ],
   "note": "Proved in Orient_Props.v. Modelled: both maps with their vertex tables and shape functions, the smoothed sign with the real `tanh`, both tensor builders with the real `sqrt` and `max`, and the broadcasting of array arguments; real numbers of the standard library. Counterexamples to the unguarded claim: C68_triangle_trace_refuted, C68_tetrahedron_documented_refuted."
  },
  {
   "property": "C69",
   "status": "proved",
   "theorems": [
    "C69_moments",
    "C69_quadratic",
    "C69_quadratic_exact_only_aligned",
    "C69_linear",
    "C69_isotropic",
    "C69_linear_aligned_inadmissible",
    "C69_hybrid",
    "C69_build_symmetric_contraction",
    "C69_build_contraction_refuted",
    "C69_build_admissible",
    "C69_build_sweeps",
    "C69_build_admissible_iff",
    "C69_build_limits",
    "C69_principal_direction"
   ],
   "note": "Proved in Closure_Props.v. Modelled: all four closures entry by entry, `principal_direction` over an `eigh` given by its contract (ascending eigenvalues, orthonormal eigenvector columns); unbatched arrays, real numbers. Counterexamples to the unguarded claim: C69_build_contraction_refuted."
  },
  {
   "property": "C70",
   "status": "proved",
   "theorems": [
    "C70_aligned_2d",
    "C70_aligned_3d",
    "C70_symmetries",
    "C70_objective",
    "C70_average",
    "C70_positive_definite_2d",
    "C70_positive_definite_3d",
    "C70_content",
    "C70_empty_is_stiff",
    "C70_design_positive_definite"
   ],
   "note": "Proved in Stiff_Props.v. Modelled: both builders with their coefficient formulas and einsum index orders; exact real arithmetic."
  },
  {
   "property": "C71",
   "status": "proved",
   "theorems": [
    "C71_exponential_loading",
    "C71_exponential_unloading",
    "C71_exponential_bounds",
    "C71_unloading_traction_jump",
    "C71_no_dissipation",
    "C71_bilinear_elastic_limit",
    "C71_bilinear_loading",
    "C71_bilinear_overshoot",
    "C71_bilinear_energy_refuted",
    "C71_bilinear_unloading"
   ],
   "note": "Proved in Cohesive_Props.v. Modelled: both potentials branch by branch at one node (they are elementwise), with the tolerances 1e-15 and 1e-30, over the real numbers. Counterexamples to the unguarded claim: C71_bilinear_energy_refuted."
  },
  {
   "property": "C72",
   "status": "proved",
   "theorems": [
    "C72_trapezoidal_weights",
    "C72_trapezoidal_exact",
    "C72_trapezoidal_nonneg",
    "C72_lumped_areas",
    "C72_lumped_total",
    "C72_lumped_nonneg",
    "C72_quad_area",
    "C72_create",
    "C72_opening",
    "C72_unit_normals",
    "C72_normals_not_checked",
    "C72_translation",
    "C72_mode_one",
    "C72_compression",
    "C72_flip",
    "C72_from_axis",
    "C72_energy_at_openings",
    "C72_exponential_energy"
   ],
   "note": "Proved in CohesiveInterface_Props.v. Modelled: the two weight functions, constructor, `from_axis` (non-negative axis), `get_jump`, `get_opening`, `get_opening_components`, `create_energy_fn`; lists of reals."
  },
  {
   "property": "C73",
   "status": "proved",
   "theorems": [
    "C73_load_work",
    "C73_static",
    "C73_equilibrium",
    "C73_truncated",
    "C73_without_maps"
   ],
   "note": "Proved in Response_Props.v. Modelled: both compliance constructors on the finite element and boundary data of the kernel model; the load parameter forms None, scalar, list."
  },
  {
   "property": "C74",
   "status": "proved",
   "theorems": [
    "C74_fraction",
    "C74_bounds",
    "C74_constant",
    "C74_linear",
    "C74_ambiguous_refuted"
   ],
   "note": "Proved in VolFrac_Props.v. Modelled: the whole function, on the ravelled input. Counterexamples to the unguarded claim: C74_ambiguous_refuted."
  },
  {
   "property": "C75",
   "status": "proved",
   "theorems": [
    "C75_classify",
    "C75_safe_log",
    "C75_rest_minimal",
    "C75_objective",
    "C75_plane_strain",
    "C75_reg_symmetric",
    "C75_reg_energy",
    "C75_reg_semidefinite",
    "C75_reg_affine",
    "C75_create"
   ],
   "note": "Proved in Tmc_Props.v. Modelled: classification, energy density (dimension two and three), regularization kernel of one cell, factory parameters; automatic differentiation is replaced by real differentiability (the gradient that a reverse-mode select would give at J = 0 exactly, NaN, is not modelled)."
  },
  {
   "property": "C76",
   "status": "proved",
   "theorems": [
    "C76_affine",
    "C76_small_mesh",
    "C76_bounds",
    "C76_clip",
    "C76_raises",
    "C76_same_mesh",
    "C76_overshoot_refuted",
    "C76_missed_refuted"
   ],
   "note": "Proved in Adaptive_Props.v. Modelled: the whole function, with the two k-d tree queries as arguments constrained by their nearest-neighbour contract where a theorem needs it. Counterexamples to the unguarded claim: C76_overshoot_refuted, C76_missed_refuted."
  },
  {
   "property": "C77",
   "status": "proved",
   "theorems": [
    "C77_range",
    "C77_constant",
    "C77_scale",
    "C77_linear_symmetric",
    "C77_linear_refuted",
    "C77_size",
    "C77_size_none",
    "C77_size_uniform_refuted"
   ],
   "note": "Proved in AdaptiveGrad_Props.v. Modelled: both functions; the nearest-node query is an argument. Counterexamples to the unguarded claim: C77_linear_refuted, C77_size_uniform_refuted."
  },
  {
   "property": "C78",
   "status": "proved",
   "theorems": [
    "C78_extract",
    "C78_extract_raises",
    "C78_tags_refuted",
    "C78_periodic",
    "C78_small_box_refuted",
    "C78_retune",
    "C78_attempts_refuted",
    "C78_best_refuted"
   ],
   "note": "Proved in AdaptiveBox_Props.v. Modelled: the three functions with gmsh's answers as arguments. Counterexamples to the unguarded claim: C78_tags_refuted, C78_small_box_refuted, C78_attempts_refuted, C78_best_refuted."
  },
  {
   "property": "C79",
   "status": "proved",
   "theorems": [
    "C79_sign",
    "C79_evaluate",
    "C79_laws",
    "C79_lipschitz",
    "C79_bounds",
    "C79_disjoint_refuted",
    "C79_grid"
   ],
   "note": "Proved in Sdf_Props.v. Modelled: the operator classes and the grid construction of to_mesh; primitives are arbitrary functions with their own batch evaluation and bounds; marching cubes is not modelled. Counterexamples to the unguarded claim: C79_disjoint_refuted."
  },
  {
   "property": "C80",
   "status": "proved",
   "theorems": [
    "C80_density",
    "C80_void",
    "C80_evaluate",
    "C80_bounds",
    "C80_affine",
    "C80_outside_refuted",
    "C80_node_order",
    "C80_node_order_refuted"
   ],
   "note": "Proved in DensityField_Props.v. Modelled: __call__, evaluate (linear simplices), the inside, distance and clamp rules; the k-d tree answers and the inverse map are arguments, the latter constrained by the linear system it solves; the Newton iteration for other elements is not modelled. Counterexamples to the unguarded claim: C80_outside_refuted, C80_node_order_refuted."
  },
  {
   "property": "C81",
   "status": "proved",
   "theorems": [
    "C81_surfaces",
    "C81_rim_radius",
    "C81_rigid",
    "C81_free_dofs",
    "C81_no_fill_refuted",
    "C81_opposite_refuted",
    "C81_cells",
    "C81_created",
    "C81_numbering",
    "C81_geometry"
   ],
   "note": "Proved in CopvBc_Props.v, CopvCells_Props.v, Copv_Props.v. Modelled: geometry, meridian, point array filled at node ids, cells, zones, Jacobian check, node sets, dof sets, dome mask, location functions; rim location function only through its node set. Counterexamples to the unguarded claim: C81_no_fill_refuted, C81_opposite_refuted."
  },
  {
   "property": "C82",
   "status": "proved",
   "theorems": [
    "C82_triad",
    "C82_mesh_triad",
    "C82_frames",
    "C82_clairaut",
    "C82_balanced",
    "C82_fibers",
    "C82_kind_refuted"
   ],
   "note": "Proved in CopvWinding_Props.v. Modelled: the three functions over real vectors. Counterexamples to the unguarded claim: C82_kind_refuted."
  },
  {
   "property": "C83",
   "status": "proved",
   "theorems": [
    "C83_compose",
    "C83_objective",
    "C83_symmetries",
    "C83_rotation",
    "C83_winding",
    "C83_voigt",
    "C83_isotropic",
    "C83_orthotropic",
    "C83_stable",
    "C83_iso_special",
    "C83_transverse",
    "C83_isotropic_cte"
   ],
   "note": "Proved in LayeredRot_Props.v, LayeredStiff_Props.v. Modelled: all builders and rotations over the reals; the inverse of the 6x6 compliance as the inverse of its two blocks; winding stiffness and expansion of one cell."
  },
  {
   "property": "C84",
   "status": "proved",
   "theorems": [
    "C84_work",
    "C84_balance",
    "C84_patch",
    "C84_thermal",
    "C84_geometric",
    "C84_laminate",
    "C84_exact",
    "C84_points",
    "C84_stiffness_at",
    "C84_moments",
    "C84_oriented",
    "C84_oriented_flat"
   ],
   "note": "Proved in LayeredElem_Props.v, LayeredQuad_Props.v, Oriented_Props.v. Modelled: quadrature, per-ply stiffness expansion, both kernels, geometric kernel, stress recovery; leggauss as a rule with its exactness contract, basix gradients as an argument with the partition-of-unity contract (shown for HEX8)."
  },
  {
   "property": "C85",
   "status": "proved",
   "theorems": [
    "C85_interfaces",
    "C85_resultants",
    "C85_positive",
    "C85_homogeneous",
    "C85_symmetric",
    "C85_free",
    "C85_lengths",
    "C85_rotation",
    "C85_isotropic",
    "C85_orthotropic",
    "C85_cte"
   ],
   "note": "Proved in ShellLam_Props.v, Shell_Props.v. Modelled: all builders, rotations, the laminate and thermal sums, over the reals; jax.vmap over plies as lists with its length check."
  },
  {
   "property": "C86",
   "status": "proved",
   "theorems": [
    "C86_modes",
    "C86_variational",
    "C86_linear",
    "C86_rigid",
    "C86_defaults"
   ],
   "note": "Proved in Mindlin_Props.v. Modelled: strains, resultants and weak form at a quadrature point; the assembly that sums them over points is modelled in the kernel files; make_mindlin_plate only passes its arguments on."
  },
  {
   "property": "C87",
   "status": "proved",
   "theorems": [
    "C87_primitives",
    "C87_profile",
    "C87_time_fn",
    "C87_newton",
    "C87_unreported_refuted",
    "C87_prefix"
   ],
   "note": "Proved in Profiler_Props.v. Modelled: counting over the flattened list of operations, top-n, timing block, time_fn, profiled Newton loop, prefixes; the clock as an arbitrary sequence of readings; text formatting, memory snapshots and compiler cost queries are not modelled. Counterexamples to the unguarded claim: C87_unreported_refuted."
  },
  {
   "property": "C88",
   "status": "proved",
   "theorems": [
    "C88_normalised",
    "C88_sensitivity",
    "C88_gradient",
    "C88_padding",
    "C88_sparse",
    "C88_refused",
    "C88_request",
    "C88_small_refuted",
    "C88_missed_refuted",
    "C88_matfree",
    "C88_matfree_short_refuted",
    "C88_generalized",
    "C88_dense"
   ],
   "note": "Proved in EigenGrad_Props.v, Eigen_Props.v. Modelled: the reduction by Cholesky and triangular solves, selection and scatter, normalisation and padding, backward rules of the host and device backends with infinities; Cholesky, eigh and ARPACK by their contracts in exact arithmetic; block Lanczos on the device and sparse factorisations are not modelled. Counterexamples to the unguarded claim: C88_small_refuted, C88_missed_refuted, C88_matfree_short_refuted."
  },
  {
   "property": "C89",
   "status": "proved",
   "theorems": [
    "C89_selection",
    "C89_interior_twice",
    "C89_area",
    "C89_length",
    "C89_affine",
    "C89_bounds",
    "C89_hessian",
    "C89_tabulation",
    "C89_symmetric",
    "C89_face_area",
    "C89_edge_length",
    "C89_curved_refuted",
    "C89_elements",
    "C89_element_gradients",
    "C89_element_range"
   ],
   "note": "Proved in FeFace_Props.v and ShapeFn_Props.v. Modelled: selection, Jacobians, inverses, Nanson scale, interpolation, gradients, second derivatives and their table; basix by its contract (facet normal parallel to the facet's cross product, reproduction of polynomials), which C89_elements and C89_element_gradients show of the written-out bases of all nine types. Counterexamples to the unguarded claim: C89_curved_refuted."
  },
  {
   "property": "C90",
   "status": "proved",
   "theorems": [
    "C90_given",
    "C90_rigid",
    "C90_no_strain",
    "C90_complete",
    "C90_orthogonal",
    "C90_independent3",
    "C90_independent2",
    "C90_line",
    "C90_presets",
    "C90_build",
    "C90_method"
   ],
   "note": "Proved in Amg_Props.v. Modelled: the strided writes, centring, row zeroing, preset table, candidate count, choice of the outer method; pyamg's hierarchy and amjax's cycle are not modelled."
  },
  {
   "property": "C91",
   "status": "proved",
   "theorems": [
    "C91_index",
    "C91_frame_names",
    "C91_accept",
    "C91_blocked",
    "C91_crash",
    "C91_normalize",
    "C91_components_refuted",
    "C91_reenter_refuted",
    "C91_labels",
    "C91_attributes",
    "C91_save",
    "C91_cell_data"
   ],
   "note": "Proved in Writer_Props.v. Modelled: both writers as state machines over abstract HDF5 and XML files; single precision, XML quoting, slashes in names and file system errors are not modelled. Counterexamples to the unguarded claim: C91_components_refuted, C91_reenter_refuted."
  },
  {
   "property": "C92",
   "status": "proved",
   "theorems": [
    "C92_element",
    "C92_element_rigid",
    "C92_coarse",
    "C92_design_solve",
    "C92_compliance",
    "C92_gradient",
    "C92_compliance_gradient",
    "C92_coarse_choice",
    "C92_element_integral",
    "C92_levels",
    "C92_bucket_free",
    "C92_bucket",
    "C92_gauss_seidel",
    "C92_transfers",
    "C92_levels_coloured",
    "C92_operator",
    "C92_smoother",
    "C92_solve",
    "C92_sweep",
    "C92_smooth"
   ],
   "note": "Proved in CmgElem_Props.v, CmgGrad_Props.v, CmgInt_Props.v, CmgLevels_Props.v, CmgPad_Props.v, CmgSmooth_Props.v, CmgSolve_Props.v, CmgSweep_Props.v. Modelled: element matrix, operator, block smoother, transfer, V-cycle, preconditioned CG loop, SIMP law with whole-number exponent, compliance, custom backward rule, padding, coarse option parsing, over the real numbers; the coarsest solver is an arbitrary function of the right hand side (the code hands it a padded vector); rounding, NaN and the JIT cache are not modelled."
  },
  {
   "property": "C93",
   "status": "proved",
   "theorems": [
    "C93_equation",
    "C93_volume",
    "C93_filter",
    "C93_element_type",
    "C93_bounds_refuted",
    "C93_source"
   ],
   "note": "Proved in Helmholtz_Props.v. Modelled: the filter's physics and parameters in the kernel and assembly model of C63, over the real numbers; the linear solve enters through its leftover residual (C14, C36); differentiation of the filter is C15/C16. Counterexamples to the unguarded claim: C93_bounds_refuted."
  },
  {
   "property": "C94",
   "status": "proved",
   "theorems": [
    "C94_worker_command",
    "C94_blank_refuted",
    "C94_ranks",
    "C94_order",
    "C94_crash",
    "C94_port_refuted",
    "C94_arguments_refuted",
    "C94_single_node"
   ],
   "note": "Proved in Launch_Props.v. Modelled: the launcher as a trace of started processes, with failures given by an oracle; command lines and variables as strings, with the remote shell's splitting at blanks and docker's -e options; argument parsing, YAML syntax, ssh, quoting and workers that never end are not modelled. Counterexamples to the unguarded claim: C94_blank_refuted, C94_port_refuted, C94_arguments_refuted."
  },
  {
   "property": "C95",
   "status": "proved",
   "theorems": [
    "C95_residual",
    "C95_tangent",
    "C95_step_direct",
    "C95_step_hybrid",
    "C95_adjoint",
    "C95_triangular_refuted"
   ],
   "note": "Proved in Extra_Props.v. Modelled: residual, merged tangent with the pattern merge and value placement of C34, matrix-free products, both backward passes and the correction on constrained rows; the extra term is an arbitrary function with its tangent (AD contract), sparsity detection by its contract; the host loops are C18's. Counterexamples to the unguarded claim: C95_triangular_refuted."
  },
  {
   "property": "C96",
   "status": "proved",
   "theorems": [
    "C96_run",
    "C96_period",
    "C96_adaptive",
    "C96_accuracy",
    "C96_exact",
    "C96_nan_refuted"
   ],
   "note": "Proved in AmgLag_Props.v. Modelled: newton.py:276-391: policy, hierarchy reuse, adaptive check, line search, stopping; hierarchy construction and Krylov iteration are arbitrary functions; jit caching not modelled. Counterexamples to the unguarded claim: C96_nan_refuted."
  },
  {
   "property": "C97",
   "status": "proved",
   "theorems": [
    "C97_cylinder",
    "C97_downward_refuted",
    "C97_orientation",
    "C97_count",
    "C97_interior_refuted"
   ],
   "note": "Proved in Cylinder_Props.v. Modelled: mesh.py:148-218, 745-771 over the real numbers; Gmsh's addCylinder and rotate by their documented meaning; the mesher itself and the zero axis are not modelled. Counterexamples to the unguarded claim: C97_downward_refuted, C97_interior_refuted."
  },
  {
   "property": "C98",
   "status": "proved",
   "theorems": [
    "C98_check",
    "C98_nan",
    "C98_error",
    "C98_small_refuted",
    "C98_relative",
    "C98_linear_solve",
    "C98_jacobi",
    "C98_jacobi_refuted",
    "C98_closure",
    "C98_closure_refuted",
    "C98_prewarm"
   ],
   "note": "Proved in LinCheck_Props.v. Modelled: LinCheck_Model: floats as exact reals or NaN, sparse matrices as entry lists with padding, the matrix-view product, the diagonal scatter, check_convergence, linear_solve, the Jacobi preconditioner, the cuDSS closure with its captured pattern and entry count, prewarm_direct_solvers. Not modelled: infinities and rounding, the backend itself (a function of pattern, values and right-hand side). Counterexamples to the unguarded claim: C98_small_refuted, C98_jacobi_refuted, C98_closure_refuted."
  },
  {
   "property": "C99",
   "status": "proved",
   "theorems": [
    "C99_arnoldi",
    "C99_ritz",
    "C99_exact",
    "C99_gpu",
    "C99_symmetrised",
    "C99_gather",
    "C99_unsymmetric_refuted",
    "C99_cache",
    "C99_cache_refuted",
    "C99_size"
   ],
   "note": "Proved in Krylov_Props.v. Modelled: Krylov_Model: the scan step with both Gram-Schmidt passes, start vector, _host_ritz (library eigenpairs as input), Ritz vectors, K-normalisation, residual check, padding, restrict_map, TpermK, symmetrisation, the index cache. Over the reals; rounding and complex pairs are not modelled; factorisation and eig by contract. Counterexamples to the unguarded claim: C99_unsymmetric_refuted, C99_cache_refuted."
  },
  {
   "property": "C100",
   "status": "proved",
   "theorems": [
    "C100_adjoint",
    "C100_last_step",
    "C100_pseudo",
    "C100_transient_refuted",
    "C100_tangent"
   ],
   "note": "Proved in TimeGrad_Props.v. Modelled: TimeGrad_Model: the reverse pass over the steps as a relation (adjoint solves by contract), the detached state. Specification: tangents of the trajectory, tied to real derivatives along a path by C100_tangent. Not modelled: rounding, unconverged solves. Counterexamples to the unguarded claim: C100_transient_refuted."
  },
  {
   "property": "C101",
   "status": "proved",
   "theorems": [
    "C101_average",
    "C101_periodic_exact",
    "C101_closest",
    "C101_constant",
    "C101_interpolated_refuted",
    "C101_rotation_refuted",
    "C101_options"
   ],
   "note": "Proved in RedNull_Props.v. Modelled: RedNull_Model: the weighted pull-back on stored entries over the reals and the option rule. Specification: class averages, squared distance after prolongation. Not modelled: rounding, the other AMG options (carried over unchanged). Counterexamples to the unguarded claim: C101_interpolated_refuted, C101_rotation_refuted."
  },
  {
   "property": "C102",
   "status": "proved",
   "theorems": [
    "C102_types",
    "C102_validation",
    "C102_injected",
    "C102_returned",
    "C102_transfer",
    "C102_tet10_refuted"
   ],
   "note": "Proved in Refine_Props.v. Modelled: Refine_Model: validation, injection with 1-based tags and z padding, an arbitrary refinement step on the store, read-back through the tag remap, trimming. Specification: coordinates of a cell in a mesh and in a store. Gmsh's refinement is a parameter; its element node order is only used in the ten-node finding (taken from Gmsh's documentation). Counterexamples to the unguarded claim: C102_tet10_refuted."
  },
  {
   "property": "C103",
   "status": "proved",
   "theorems": [
    "C103_size",
    "C103_multiple",
    "C103_edges",
    "C103_float_refuted",
    "C103_target_refuted"
   ],
   "note": "Proved in BoxDiv_Props.v. Modelled: BoxDiv_Model: size parsing, the point counts with truncation over the reals and in binary64 (SpecFloat), the direction test on the edges' bounding boxes. Not modelled: Gmsh's transfinite mesher, rounding in the direction test. Counterexamples to the unguarded claim: C103_float_refuted, C103_target_refuted."
  },
  {
   "property": "C104",
   "status": "proved",
   "theorems": [
    "C104_closed",
    "C104_fresh",
    "C104_returns",
    "C104_volume_exit",
    "C104_leak_refuted",
    "C104_inherit_refuted",
    "C104_interrupt_refuted",
    "C104_callback"
   ],
   "note": "Proved in Session_Props.v. Modelled: Session_Model: the functions as programs over a session, its options, temporary files and a log of the options at each generation; big-step semantics in which every external call may raise. Contracts: initialising an open session keeps it, finalising drops all options and does not raise, known options set to literals do not raise. Not modelled: the geometry itself, process kills. Counterexamples to the unguarded claim: C104_leak_refuted, C104_inherit_refuted, C104_interrupt_refuted."
  },
  {
   "property": "C105",
   "status": "proved",
   "theorems": [
    "C105_answers",
    "C105_left",
    "C105_completes",
    "C105_bounded",
    "C105_values_refuted",
    "C105_poison_refuted",
    "C105_error_refuted"
   ],
   "note": "Proved in Race_Props.v. Modelled: Race_Model: each call as a small program over its callback's shared dict, one read or write per step, and a scheduler that picks any call at each step. Simplified: a call into the library is atomic; right-hand sides fit their own matrix. Counterexamples to the unguarded claim: C105_values_refuted, C105_poison_refuted, C105_error_refuted."
  },
  {
   "property": "C106",
   "status": "proved",
   "theorems": [
    "C106_arguments",
    "C106_sharing",
    "C106_lists",
    "C106_round_trip",
    "C106_view",
    "C106_kernels",
    "C106_single",
    "C106_quadrature"
   ],
   "note": "Proved in ProbInit_Props.v. Modelled: ProbInit_Model: Python values with list and string indexing, the normalisation, the loop with its cache keyed by mesh identity, the quadrature check, custom_init as an arbitrary function, the validation, flatten and unflatten. The data computed from the finite elements is modelled elsewhere (Csr_Model, Assembly_Model)."
  },
  {
   "property": "C107",
   "status": "proved",
   "theorems": [
    "C107_support",
    "C107_linear",
    "C107_loads",
    "C107_serendipity",
    "C107_serendipity_loads",
    "C107_midside"
   ],
   "note": "Proved in FaceQuad_Props.v and Serendip_Props.v. Modelled: Basix vertices, facets and nodal Lagrange bases written out from the published conventions (checked to be nodal at the layout points), the mapping of facet points, the reordering, the nodal loads; for QUAD8 and HEX20 the serendipity space with the scale of the edge functions as a parameter, since the library's definition of its edge coefficients is outside the repository."
  },
  {
   "property": "C108",
   "status": "proved",
   "theorems": [
    "C108_round_trip",
    "C108_sides",
    "C108_plane",
    "C108_reader",
    "C108_type_refuted"
   ],
   "note": "Proved in VtkLoad_Props.v. Modelled: VtkLoad_Model: the file as a value, save_sol for one nodal scalar with the type guessed as in Writer_Model, from_vtk with its lookup and block search. Contract of meshio's VTU format: plane points get a third coordinate zero, the rest comes back as written. Counterexamples to the unguarded claim: C108_type_refuted."
  },
  {
   "property": "C109",
   "status": "proved",
   "theorems": [
    "C109_jacobian",
    "C109_hessian",
    "C109_operator",
    "C109_reduced",
    "C109_outside_refuted",
    "C109_cost"
   ],
   "note": "Proved in Color_Props.v. Modelled: seeds, products per colour, decompression (plain and star), placement on the canonical pattern, reduced pattern; asdex by what its functions compute, its colouring heuristic is an input. Counterexamples to the unguarded claim: C109_outside_refuted."
  },
  {
   "property": "C110",
   "status": "proved",
   "theorems": [
    "C110_patch",
    "C110_solution"
   ],
   "note": "Proved in Patch_Props.v. Modelled: Patch_Model.v (first-order gradient tables in Basix order and their re-ordering with the table of basis.py) with Kernel_Model.v, Basis_Model.v, Assembly_Model.v and Bc_Model.v."
  },
  {
   "property": "C111",
   "status": "proved",
   "theorems": [
    "C111_residual",
    "C111_jacobian",
    "C111_solution"
   ],
   "note": "Proved in Renum_Props.v. Modelled: The compiled problem of Kernel_Model (geometry, kernels, index maps) together with assembly (Assembly_Model, Csr_Model) and constraint application (Bc_Model): no new definitions of the program, the property relates two runs of the existing model."
  },
  {
   "property": "C112",
   "status": "proved",
   "theorems": [
    "C112_preconditioners",
    "C112_jacobi",
    "C112_early_stop",
    "C112_newton",
    "C112_guess",
    "C112_adjoint",
    "C112_adjoint_refuted",
    "C112_reduced_guess",
    "C112_reduced_refuted"
   ],
   "note": "Proved in Guess_Props.v. Modelled: Guess_Model.v: both guess builders, the guess with a prolongation matrix, the Jacobi preconditioner, the update of the linear and Newton solves, and the search space of the JAX Krylov methods (an inductive set: everything reachable from the first residual by the operator, the preconditioner and linear combinations). The library's own loops are not modelled. Counterexamples to the unguarded claim: C112_adjoint_refuted, C112_reduced_refuted."
  },
  {
   "property": "C113",
   "status": "proved",
   "theorems": [
    "C113_forces",
    "C113_moments",
    "C113_moments_finite"
   ],
   "note": "Proved in Moment_Props.v. Modelled: the composition of kernels and assembly of C63 (Kernel_Model, Assembly_Model); reactions, moments and load totals are the specification in Moment_Props."
  },
  {
   "property": "C114",
   "status": "proved",
   "theorems": [
    "C114_gap",
    "C114_minimum",
    "C114_unique"
   ],
   "note": "Proved in Potential_Props.v. Modelled: no new model: residual and energy as in C62 to C64, constrained residual as in C11."
  },
  {
   "property": "C115",
   "status": "proved",
   "theorems": [
    "C115_forces",
    "C115_energy",
    "C115_rigid",
    "C115_hyperelastic"
   ],
   "note": "Proved in Objective_Props.v. Modelled: no new model: residual as in C62 and C63, energy as in C64."
  },
  {
   "property": "C116",
   "status": "proved",
   "theorems": [
    "C116_superposition",
    "C116_solutions",
    "C116_reciprocity"
   ],
   "note": "Proved in Linear_Props.v. Modelled: no new model: residual as in C62 and C63, constrained residual as in C11."
  },
  {
   "property": "C117",
   "status": "proved",
   "theorems": [
    "C117_conduction",
    "C117_one_point_refuted",
    "C117_form",
    "C117_symmetric",
    "C117_nonneg",
    "C117_definite",
    "C117_reduced_refuted"
   ],
   "note": "Proved in Stiffness_Props.v, Modes_Props.v and Underint_Props.v. Modelled: assembly as in C02, elimination as in C09, kernels as in C62 and C63; that the element tangents are exact derivatives (forward-mode differentiation) is a hypothesis; the points of the quadrature rules are written out. Counterexamples to the unguarded claim: C117_reduced_refuted (default rule of QUAD8 and HEX20), C117_one_point_refuted."
  },
  {
   "property": "C118",
   "status": "proved",
   "theorems": [
    "C118_bound",
    "C118_monotone",
    "C118_sensitivity",
    "C118_convex"
   ],
   "note": "Proved in Comply_Props.v. Modelled: no new model: compliance as in C73, weak form as in C62 and C63; body forces excluded, as in the compliance response itself."
  },
  {
   "property": "C119",
   "status": "proved",
   "theorems": [
    "C119_bridge",
    "C119_same",
    "C119_negative_refuted",
    "C119_chain",
    "C119_ring_refuted"
   ],
   "note": "Proved in Chain_Props.v. Modelled: Chain_Model: node_var_from_solution; gather and interpolation as in C20, layout as in C21. Counterexamples to the unguarded claim: C119_negative_refuted, C119_ring_refuted."
  },
  {
   "property": "C120",
   "status": "proved",
   "theorems": [
    "C120_balance",
    "C120_decay",
    "C120_run",
    "C120_content"
   ],
   "note": "Proved in Diffuse_Props.v. Modelled: no new model: the weak form of C63 with the mass kernel; that the parameters hold the old field at the quadrature points is C119; the solve is exact (residual zero), as in C113 and C114."
  },
  {
   "property": "C121",
   "status": "proved",
   "theorems": [
    "C121_balance",
    "C121_conserved"
   ],
   "note": "Proved in Mixed_Props.v. Modelled: no new model: the assembled weak form of C63 and the degree-of-freedom numbering of C21."
  },
  {
   "property": "C122",
   "status": "proved",
   "theorems": [
    "C122_newton",
    "C122_linear",
    "C122_half_refuted",
    "C122_host",
    "C122_search_succeeds"
   ],
   "note": "Proved in Converge_Props.v. Modelled: no new model: the line searches and loops of C17 and C18. Counterexamples to the unguarded claim: C122_half_refuted."
  },
  {
   "property": "C123",
   "status": "proved",
   "theorems": [
    "C123_minimum",
    "C123_semidefinite",
    "C123_voigt",
    "C123_monotone",
    "C123_reuss"
   ],
   "note": "Proved in Bounds_Props.v. Modelled: no new model: the homogenization paths of C65; voigt_strain and voigt_energy spell out the Voigt convention independently of the tables."
  },
  {
   "property": "C124",
   "status": "proved",
   "theorems": [
    "C124_upper",
    "C124_lower",
    "C124_range"
   ],
   "note": "Proved in Maximum_Props.v. Modelled: no new model: the kernels and assembly of C63."
  },
  {
   "property": "C125",
   "status": "proved",
   "theorems": [
    "C125_advances",
    "C125_passes",
    "C125_ends",
    "C125_adapted",
    "C125_adaptive_ends",
    "C125_fixed",
    "C125_grid",
    "C125_extra_step_refuted",
    "C125_stall_refuted"
   ],
   "note": "Proved in TimeFloat_Props.v. Modelled: TimeFloat_Model: the loop condition, the clamped step and the update of the clock over abstract arithmetic, instantiated with the standard library's IEEE binary64 (SpecFloat) and with reals rounded to nearest even (Flocq; overflow not modelled). Counterexamples to the unguarded claim: C125_extra_step_refuted, C125_stall_refuted."
  },
  {
   "property": "C126",
   "status": "proved",
   "theorems": [
    "C126_forces",
    "C126_units"
   ],
   "note": "Proved in Similar_Props.v. Modelled: Kernel_Model and Assembly_Model: one variable, no universal or extra kernel; determinant, inverse and length of the Jacobians enter through det(sQM) = sd det M, inv M = M^-1 and |v Q/s| = |v|/s, which the library functions satisfy."
  },
  {
   "property": "C127",
   "status": "proved",
   "theorems": [
    "C127_stability",
    "C127_unknown",
    "C127_euler",
    "C127_rk2",
    "C127_rk4"
   ],
   "note": "Proved in Explicit_Props.v. Modelled: Explicit_Model: the three schemes and the passes of the time loop over real vectors (the pytree operations are entrywise); rounding is not modelled."
  },
  {
   "property": "C128",
   "status": "proved",
   "theorems": [
    "C128_node",
    "C128_cell",
    "C128_volume",
    "C128_surface",
    "C128_node_curved_refuted"
   ],
   "note": "Exact for every function at quadrature points and at cell means; node fields exact for affine functions (counterexample for a square)."
  },
  {
   "property": "C129",
   "status": "proved",
   "theorems": [
    "C129_classes",
    "C129_masks",
    "C129_plane_faces_refuted",
    "C129_corners",
    "C129_centers",
    "C129_bounds"
   ],
   "note": "Full statement; in two dimensions face_mask marks the interior nodes (C129_plane_faces_refuted)."
  }
 ]
}