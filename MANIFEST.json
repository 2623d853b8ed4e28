{
 "claims": [
  {
   "property": "C01",
   "status": "proved",
   "theorems": [
    "box_mesh_valid"
   ],
   "note": "all sizes; common.box_mesh (numpy); the gmsh based fem box_mesh is external"
  },
  {
   "property": "C02",
   "status": "proved",
   "theorems": [
    "rectangle_mesh_valid",
    "rectangle_mesh_conforming"
   ],
   "note": ""
  },
  {
   "property": "C03",
   "status": "proved",
   "theorems": [
    "box_mesh_conforming",
    "box_mesh_volume"
   ],
   "note": ""
  },
  {
   "property": "C04",
   "status": "proved",
   "theorems": [
    "lattice_id_roundtrip",
    "lattice_xyz_roundtrip",
    "vmapped_kernel_lands_on_own_cell",
    "centroid_of_lattice_cell",
    "vmapped_lattice_kernel"
   ],
   "note": ""
  },
  {
   "property": "C05",
   "status": "proved",
   "theorems": [
    "d3q19_velocity_set",
    "d3q19_isotropy"
   ],
   "note": ""
  },
  {
   "property": "C06",
   "status": "proved",
   "theorems": [
    "equilibrium_f_moments",
    "equilibrium_h_moments"
   ],
   "note": ""
  },
  {
   "property": "C07",
   "status": "proved",
   "theorems": [
    "collision_balance",
    "collision_gas_wall_zero"
   ],
   "note": ""
  },
  {
   "property": "C08",
   "status": "proved",
   "theorems": [
    "thermal_collision_balance",
    "thermal_collision_gas_wall_zero"
   ],
   "note": ""
  },
  {
   "property": "C09",
   "status": "proved",
   "theorems": [
    "streaming_conserves_mass",
    "collision_and_streaming_conserve_mass"
   ],
   "note": ""
  },
  {
   "property": "C10",
   "status": "proved",
   "theorems": [
    "total_mass_restored",
    "total_mass_restored_refuted"
   ],
   "note": "the refutation is the no-interface-cell case named in the property"
  },
  {
   "property": "C11",
   "status": "proved",
   "theorems": [
    "walls_never_change",
    "gas_and_wall_hold_nothing"
   ],
   "note": ""
  },
  {
   "property": "C12",
   "status": "partial",
   "theorems": [
    "liquid_gas_separated_before_cleanup_partial",
    "liquid_gas_separated_refuted"
   ],
   "note": "false of the code: the last clean-up pass can create liquid-gas contact; true before that pass"
  },
  {
   "property": "C13",
   "status": "proved",
   "theorems": [
    "phase_transition_rules",
    "bulk_cells_stay"
   ],
   "note": ""
  },
  {
   "property": "C14",
   "status": "proved",
   "theorems": [
    "melt_history_exact"
   ],
   "note": ""
  },
  {
   "property": "C15",
   "status": "proved",
   "theorems": [
    "temperature_recovery",
    "temperature_continuous_refuted"
   ],
   "note": "the refutation is the inconsistent-parameter case named in the property"
  },
  {
   "property": "C16",
   "status": "proved",
   "theorems": [
    "read_path_follows_way_points",
    "read_path_rejects_single_point"
   ],
   "note": ""
  },
  {
   "property": "C17",
   "status": "proved",
   "theorems": [
    "outputs_are_consecutive"
   ],
   "note": ""
  },
  {
   "property": "C18",
   "status": "proved",
   "theorems": [
    "grains_are_connected_components",
    "grains_of_any_graph"
   ],
   "note": ""
  },
  {
   "property": "C19",
   "status": "proved",
   "theorems": [
    "adjacency_is_face_neighbours",
    "face_neighbours_symmetric"
   ],
   "note": ""
  },
  {
   "property": "C20",
   "status": "proved",
   "theorems": [
    "grain_volumes_add_up"
   ],
   "note": "the PCA aspect ratio itself is external (oracle)"
  },
  {
   "property": "C21",
   "status": "proved",
   "theorems": [
    "initial_state_one_hot",
    "wrong_grain_count_rejected"
   ],
   "note": "the random orientation per grain is an arbitrary input"
  },
  {
   "property": "C22",
   "status": "proved",
   "theorems": [
    "laplacian_conservative",
    "laplacian_vanishes_on_uniform",
    "no_orientation_from_nothing_euler",
    "no_orientation_from_nothing_rk4"
   ],
   "note": "conservation for the isotropic case (anisotropy <= 0); the anisotropic factor multiplies the Laplacian cell-wise"
  },
  {
   "property": "C23",
   "status": "proved",
   "theorems": [
    "integrators_return_new_time",
    "euler_order_one",
    "rk4_order_four"
   ],
   "note": ""
  },
  {
   "property": "C24",
   "status": "proved",
   "theorems": [
    "layered_mesh_consistent",
    "layered_mesh_unequal_layers_refuted"
   ],
   "note": "the refutation covers layers with different point counts, outside the property"
  },
  {
   "property": "C25",
   "status": "partial",
   "theorems": [
    "interpolation_inside_interval_partial",
    "coupled_temperature_extrapolates",
    "temperature_between_snapshots_refuted"
   ],
   "note": "false of the code: after the first CFD step the loop always extrapolates"
  },
  {
   "property": "C26",
   "status": "proved",
   "theorems": [
    "convert_temperature_keeps_location"
   ],
   "note": ""
  },
  {
   "property": "C27",
   "status": "proved",
   "theorems": [
    "mesh_neighbours",
    "mesh_neighbours_mutual",
    "mesh_boundary_faces_once",
    "mesh_surface_sets_partition",
    "mesh_face_centres",
    "mesh2_neighbours",
    "mesh2_boundary_faces_once"
   ],
   "note": ""
  },
  {
   "property": "C28",
   "status": "proved",
   "theorems": [
    "diffusion_conservative",
    "diffusion_vanishes_on_constants",
    "diffusion_symmetric",
    "diffusion_dissipative",
    "diffusion_routines_agree"
   ],
   "note": ""
  },
  {
   "property": "C29",
   "status": "proved",
   "theorems": [
    "ghost_cells_realise_bc"
   ],
   "note": ""
  },
  {
   "property": "C30",
   "status": "proved",
   "theorems": [
    "convection_conservative",
    "convection_of_constant",
    "convection_face_value_linear",
    "driver_convection_conservative"
   ],
   "note": ""
  },
  {
   "property": "C31",
   "status": "proved",
   "theorems": [
    "window_inside_domain",
    "window_contains_laser",
    "window_one_cell_contains_laser_refuted"
   ],
   "note": "the refutation is the one-cell case named in the property"
  },
  {
   "property": "C32",
   "status": "proved",
   "theorems": [
    "step_clock_frame_melted",
    "run_advances_time",
    "melted_fraction_is_running_maximum",
    "melted_fraction_in_unit_interval",
    "fluid_fraction_by_temperature"
   ],
   "note": ""
  },
  {
   "property": "C33",
   "status": "proved",
   "theorems": [
    "matrix_is_derivative_of_residual",
    "jacobi_uses_matrix_diagonal",
    "linear_solve_leaves_no_residual"
   ],
   "note": "jax.jacrev is external; the model holds its closed form and the theorem shows it is the derivative"
  },
  {
   "property": "C34",
   "status": "proved",
   "theorems": [
    "residual_global_balance",
    "energy_step_global_balance"
   ],
   "note": ""
  },
  {
   "property": "C35",
   "status": "proved",
   "theorems": [
    "newton_loop_bounded",
    "newton_loop_keeps_exact_start"
   ],
   "note": ""
  },
  {
   "property": "C36",
   "status": "partial",
   "theorems": [
    "energy_dirichlet_usable_partial",
    "energy_dirichlet_raises",
    "energy_dirichlet_usable_refuted",
    "driver_solves_defined"
   ],
   "note": "false of the code: energy_eqn passes the string 'True'; true for the boolean"
  },
  {
   "property": "C37",
   "status": "partial",
   "theorems": [
    "gradient_exact_on_linear_partial",
    "gradient_ignores_boundary_conditions",
    "gradient_honours_bc_refuted"
   ],
   "note": "false of the code: the supplied conditions are overwritten; interior exactness holds"
  },
  {
   "property": "C38",
   "status": "partial",
   "theorems": [
    "face_velocity_component_partial",
    "face_velocity_component_refuted"
   ],
   "note": "false of the code: axis 2 raises TypeError; axes 0 and 1 hold"
  },
  {
   "property": "C39",
   "status": "proved",
   "theorems": [
    "gamma_ambient_equilibrium",
    "gamma_maximum_principle",
    "gamma_deviation_never_grows",
    "gamma_laser_only_heats",
    "gamma_liquid_fraction_unit"
   ],
   "note": ""
  },
  {
   "property": "C40",
   "status": "proved",
   "theorems": [
    "batched_evaluation_is_direct",
    "batched_evaluation_without_cells_raises",
    "batched_evaluation_wrong_size_raises"
   ],
   "note": ""
  },
  {
   "property": "C41",
   "status": "proved",
   "theorems": [
    "residual_is_sum_over_corners",
    "matrix_acts_as_assembled_jacobians",
    "assembled_matrix_is_derivative",
    "assembled_residual_affine"
   ],
   "note": "jax.jacfwd is an argument with the contract \"directional derivatives\""
  },
  {
   "property": "C42",
   "status": "proved",
   "theorems": [
    "internal_forces_self_equilibrated"
   ],
   "note": ""
  },
  {
   "property": "C43",
   "status": "proved",
   "theorems": [
    "patch_test_gradient",
    "affine_field_value_exact",
    "singular_element_raises"
   ],
   "note": "dimensions 1 to 3; the shape function tables (basix) are arguments with the contract that gradients sum to zero"
  },
  {
   "property": "C44",
   "status": "proved",
   "theorems": [
    "dirichlet_nodes_exact",
    "dirichlet_length_mismatch_raises",
    "constrained_residual_exact",
    "constrained_operator_exact",
    "constrained_operator_is_derivative",
    "preconditioner_is_diagonal",
    "problem_conditions_from_locations"
   ],
   "note": "both back ends"
  },
  {
   "property": "C45",
   "status": "proved",
   "theorems": [
    "linear_solve_meets_equation_and_conditions",
    "newton_solve_of_affine_problem_stops",
    "linear_guess_solves_loaded_system",
    "starting_guess_solves_constrained_rows",
    "finite_element_linear_solve"
   ],
   "note": "linear solver contract: exact solution of a solvable system"
  },
  {
   "property": "C46",
   "status": "partial",
   "theorems": [
    "newton_returns_small_finite_residual_partial",
    "linear_solver_returns_finite_partial",
    "linear_solver_returns_large_residual_refuted",
    "nan_residual_stops_plain_solver",
    "periodic_solver_returns_nan_refuted"
   ],
   "note": "holds for the nonlinear row-elimination solver; false for linear=True and for the periodic solver with NaN norms"
  },
  {
   "property": "C47",
   "status": "partial",
   "theorems": [
    "augmented_residual_exact",
    "augmented_matrix_is_derivative",
    "stationary_point_satisfies_all_conditions",
    "periodic_linear_solve",
    "periodic_newton_solve",
    "finite_element_periodic_solve",
    "periodic_with_petsc_raises_refuted"
   ],
   "note": "everything holds with the JAX back end; the PETSc back end raises UnboundLocalError"
  },
  {
   "property": "C48",
   "status": "proved",
   "theorems": [
    "periodic_pairs_correct"
   ],
   "note": ""
  },
  {
   "property": "C49",
   "status": "partial",
   "theorems": [
    "selected_faces_exact_partial",
    "selected_faces_on_boundary_refuted"
   ],
   "note": "false of the code in the last part: an interior face whose nodes all satisfy the location function is selected as well"
  },
  {
   "property": "C50",
   "status": "proved",
   "theorems": [
    "node_order_matches_mesh",
    "reorder_inds_inverts",
    "face_lists_match_facets"
   ],
   "note": "basix's documented vertex, facet and dof order and the VTK order are in BasisSpec.v"
  },
  {
   "property": "C51",
   "status": "proved",
   "theorems": [
    "cylinder_renumbering_coherent"
   ],
   "note": "which points gmsh emits is external"
  },
  {
   "property": "C52",
   "status": "proved",
   "theorems": [
    "reverse_mode_exact",
    "forward_mode_exact",
    "forward_and_reverse_modes_adjoint",
    "constrained_residual_differentiable"
   ],
   "note": "for problems without periodic conditions (see C86)"
  },
  {
   "property": "C53",
   "status": "proved",
   "theorems": [
    "body_force_resultant_exact",
    "body_force_from_field_resultant_exact",
    "traction_resultant_exact",
    "total_resultant_exact"
   ],
   "note": "partition of unity of the tables is the contract"
  },
  {
   "property": "C54",
   "status": "partial",
   "theorems": [
    "damping_within_bounds",
    "dynamic_relaxation_returns_refuted"
   ],
   "note": "the function reads dofs before assigning it, so every call raises"
  },
  {
   "property": "C55",
   "status": "proved",
   "theorems": [
    "bounds_bracket_design",
    "asymptotes_keep_distance",
    "asymptotes_adapt"
   ],
   "note": ""
  },
  {
   "property": "C56",
   "status": "proved",
   "theorems": [
    "subproblem_iterates_interior"
   ],
   "note": "The linear solver is arbitrary; the outer loop ends after 7 passes of at most 200 Newton steps and 50 halvings."
  },
  {
   "property": "C57",
   "status": "proved",
   "theorems": [
    "optimize_stays_in_unit_box",
    "optimize_passes_exact"
   ],
   "note": "Also: consecutive designs differ by at most the move limit, and what each pass hands to the subproblem solver."
  },
  {
   "property": "C58",
   "status": "proved",
   "theorems": [
    "subproblem_first_order_consistent",
    "mmasub_subproblem_well_posed"
   ],
   "note": "The approximation of the objective omits its constant term, so for it only the gradient is claimed."
  },
  {
   "property": "C59",
   "status": "proved",
   "theorems": [
    "filter_weights_nonnegative",
    "filter_is_cone_when_few_neighbours",
    "filter_preserves_total",
    "filter_radius_is_cell_size"
   ],
   "note": "The positive diagonal needs distinct centroids (the k-d tree may return coincident points in any order)."
  },
  {
   "property": "C60",
   "status": "proved",
   "theorems": [
    "linear_elasticity_laws",
    "linear_elasticity_isotropic",
    "linear_elasticity_constants"
   ],
   "note": "also isotropy, symmetry of the work and the two elastic constants"
  },
  {
   "property": "C61",
   "status": "proved",
   "theorems": [
    "return_map_radial",
    "plastic_histories_admissible"
   ],
   "note": "jnp.where(norm > 0, ...) and safe square root are modelled; floats are reals"
  },
  {
   "property": "C62",
   "status": "partial",
   "theorems": [
    "hyperelastic_energy",
    "hyperelastic_stress",
    "cellular_solid_energy",
    "hyperelastic_rest_2d_refuted"
   ],
   "note": "proved in 3-D, also objectivity, moment balance and the small-strain limit of the stress; false in 2-D, where the undeformed state has negative energy and non-zero stress. J > 0 throughout; jax.grad is any function that is the gradient"
  },
  {
   "property": "C63",
   "status": "proved",
   "theorems": [
    "exterior_faces_found",
    "exterior_faces_after_updates",
    "exterior_faces_update_goes_on",
    "deactivation_refuted"
   ],
   "note": "The incremental statement is for growing activation tables, as in thin_wall.py; a table in which cells are switched off again is not handled by the code (deactivation_refuted). If there is no exterior face at all the code raises IndexError."
  },
  {
   "property": "C64",
   "status": "proved",
   "theorems": [
    "active_mesh_coherent"
   ],
   "note": ""
  },
  {
   "property": "C65",
   "status": "partial",
   "theorems": [
    "proper_colouring_rows_suffice",
    "proper_colouring_cols_suffice",
    "greedy_colouring_proper",
    "sparse_jacrev_exact",
    "sparse_jacfwd_exact",
    "sparse_jac_shapes",
    "sparse_jac_empty",
    "pattern_values_unused_refuted",
    "repeated_positions_refuted"
   ],
   "note": "Proved for every proper colouring, and for the greedy colouring in any order of the nodes when each position of the pattern is given once with a positive value. The claim that the values of the pattern are not used is refuted (values of mixed sign can hide a conflict) and so is the case of a repeated position. Not modelled: auxiliary outputs and the argument checks."
  },
  {
   "property": "C66",
   "status": "partial",
   "theorems": [
    "data_frame_times_partial",
    "data_frame_time_counts_fields",
    "data_frame_times_refuted",
    "data_frame_too_little"
   ],
   "note": "Holds when the listing is in step order, equally spaced from step 0, with one field per file. In general the time counts fields, not files; refuted for two fields per file and for another listing order."
  },
  {
   "property": "C67",
   "status": "proved",
   "theorems": [
    "phase_transitions",
    "phase_follows_history"
   ],
   "note": ""
  },
  {
   "property": "C68",
   "status": "proved",
   "theorems": [
    "laser_path_step_count",
    "steps_equal_travel_time_refuted"
   ],
   "note": "the refutation is the exclusion in brackets in the property"
  },
  {
   "property": "C69",
   "status": "proved",
   "theorems": [
    "unit_conversion_consistent"
   ],
   "note": ""
  },
  {
   "property": "C70",
   "status": "proved",
   "theorems": [
    "enthalpy_streaming_balance"
   ],
   "note": ""
  },
  {
   "property": "C71",
   "status": "proved",
   "theorems": [
    "bulk_force_is_gravity",
    "marangoni_is_tangential",
    "heat_source_rules",
    "flat_interface_has_no_curvature",
    "temperature_gradient_ignores_gas_and_wall"
   ],
   "note": ""
  },
  {
   "property": "C72",
   "status": "proved",
   "theorems": [
    "order_parameters_stay_in_unit_interval",
    "anisotropy_factor_bounds",
    "liquid_fraction_and_mobility_bounds"
   ],
   "note": ""
  },
  {
   "property": "C73",
   "status": "proved",
   "theorems": [
    "local_energy_gradient_is_derivative",
    "phase_field_is_gradient_flow",
    "interface_term_symmetric_and_dissipative"
   ],
   "note": ""
  },
  {
   "property": "C74",
   "status": "proved",
   "theorems": [
    "stacked_grain_numbers_unique_refuted"
   ],
   "note": "finding"
  },
  {
   "property": "C75",
   "status": "proved",
   "theorems": [
    "written_orientation_is_dominant"
   ],
   "note": ""
  },
  {
   "property": "C76",
   "status": "proved",
   "theorems": [
    "body_source_off_raises",
    "run_past_laser_off_fails"
   ],
   "note": "finding"
  },
  {
   "property": "C77",
   "status": "proved",
   "theorems": [
    "pressure_source_sums_to_zero",
    "pressure_equation_compatible"
   ],
   "note": ""
  },
  {
   "property": "C78",
   "status": "proved",
   "theorems": [
    "energy_maximum_principle",
    "energy_minimum_principle"
   ],
   "note": ""
  },
  {
   "property": "C79",
   "status": "proved",
   "theorems": [
    "flow_left_behind_is_frozen",
    "solid_cells_at_rest_refuted"
   ],
   "note": "finding; the refutation is the solid cell of the property"
  },
  {
   "property": "C80",
   "status": "proved",
   "theorems": [
    "ambient_equilibrium"
   ],
   "note": "bicgstab and the derivative of the conductivity are arguments"
  },
  {
   "property": "C81",
   "status": "partial",
   "theorems": [
    "gamma_heat_balance_weighted",
    "gamma_heat_balance_partial",
    "gamma_heat_balance_refuted"
   ],
   "note": "false of the code when the conductivity varies (k*laplace(T) is not in divergence form); true for uniform conductivity, and for the balance weighted with 1/k"
  },
  {
   "property": "C82",
   "status": "partial",
   "theorems": [
    "scan_direction_unit_partial",
    "scan_direction_unit_refuted",
    "scan_direction_dwell_is_nan"
   ],
   "note": "false of the code for oblique segments: the second component is divided by a norm that already contains the normalised first component"
  },
  {
   "property": "C83",
   "status": "proved",
   "theorems": [
    "virtual_work_identity"
   ],
   "note": "no contract on the shape functions needed"
  },
  {
   "property": "C84",
   "status": "proved",
   "theorems": [
    "internal_moments_vanish"
   ],
   "note": ""
  },
  {
   "property": "C85",
   "status": "proved",
   "theorems": [
    "nanson_scale_is_area",
    "nanson_scale_is_length"
   ],
   "note": ""
  },
  {
   "property": "C86",
   "status": "partial",
   "theorems": [
    "gradient_with_periodic_conditions_refuted"
   ],
   "note": "the solver is exact but its derivative is not"
  },
  {
   "property": "C87",
   "status": "proved",
   "theorems": [
    "newton_direction_is_exact"
   ],
   "note": ""
  },
  {
   "property": "C88",
   "status": "proved",
   "theorems": [
    "optimize_completes"
   ],
   "note": ""
  },
  {
   "property": "C89",
   "status": "partial",
   "theorems": [
    "subsolv_near_optimal_partial",
    "near_kkt_is_near_optimal"
   ],
   "note": "The code gives up after 200 Newton steps per level; that this never happens is not proved."
  },
  {
   "property": "C90",
   "status": "partial",
   "theorems": [
    "filter_needs_twenty_cells_refuted"
   ],
   "note": "False of the code: with 1 to 19 flexible cells the query returns the out-of-range index and np.take raises IndexError."
  },
  {
   "property": "C91",
   "status": "proved",
   "theorems": [
    "shape_tables_are_nodal",
    "tables_meet_fem_assumptions"
   ],
   "note": "Lagrange types, under the documented contract of basix; for the serendipity types HEX20 and QUAD8 only the order table is covered (C50)"
  },
  {
   "property": "C92",
   "status": "proved",
   "theorems": [
    "face_tables_live_on_facets",
    "face_lists_match_facets"
   ],
   "note": "Lagrange types, under the documented contract of basix"
  },
  {
   "property": "C93",
   "status": "proved",
   "theorems": [
    "affine_cell_measures",
    "box_mesh_quadrature_volume",
    "rectangle_mesh_quadrature_area"
   ],
   "note": "Lagrange types, under the documented contract of basix"
  },
  {
   "property": "C94",
   "status": "proved",
   "theorems": [
    "tet4_quality_is_six_volumes",
    "tet4_quality_orientation",
    "meshio_types_match"
   ],
   "note": "the determinant statement uses the documented contract of basix"
  },
  {
   "property": "C95",
   "status": "proved",
   "theorems": [
    "stiffness_fully_integrated",
    "mass_fully_integrated_on_boxes"
   ],
   "note": "exactness of the rule to its nominal order is a hypothesis about basix"
  },
  {
   "property": "C96",
   "status": "partial",
   "theorems": [
    "tet4_mass_integration_refuted"
   ],
   "note": "false: the one-point rule of TET4 does not integrate the mass matrix exactly, and a non-zero field has zero mass"
  },
  {
   "property": "C97",
   "status": "proved",
   "theorems": [
    "elastic_stiffness_symmetric_psd",
    "rigid_motions_cost_nothing"
   ],
   "note": "no body force or Cauchy data (tractions fixed by the state)"
  },
  {
   "property": "C98",
   "status": "proved",
   "theorems": [
    "maximum_plastic_dissipation",
    "return_map_contraction"
   ],
   "note": ""
  },
  {
   "property": "C99",
   "status": "proved",
   "theorems": [
    "plastic_residual",
    "plastic_residual_monotone",
    "plastic_update_idempotent",
    "average_stress_admissible"
   ],
   "note": "monotone without Cauchy boundary conditions"
  },
  {
   "property": "C100",
   "status": "partial",
   "theorems": [
    "surface_area_is_area",
    "traction_outcomes",
    "traction_is_force_partial",
    "traction_of_affine_field",
    "traction_is_force_refuted"
   ],
   "note": "compute_traction always multiplies the stress by e_z: it is the force for surfaces with outward normal e_z only, has the wrong sign on a bottom face and raises TypeError unless dim is 3"
  },
  {
   "property": "C101",
   "status": "proved",
   "theorems": [
    "l2_error_is_a_norm",
    "h1_error_equivalent",
    "affine_fields_have_no_error"
   ],
   "note": "positive quadrature weights"
  },
  {
   "property": "C102",
   "status": "proved",
   "theorems": [
    "thermo_stress_update",
    "thermo_histories_admissible",
    "free_thermal_expansion"
   ],
   "note": ""
  },
  {
   "property": "C103",
   "status": "proved",
   "theorems": [
    "heat_is_balanced",
    "surface_heat_flux"
   ],
   "note": ""
  },
  {
   "property": "C104",
   "status": "proved",
   "theorems": [
    "simp_interpolates",
    "multi_material_interpolates",
    "plane_stress_is_three_dimensional",
    "design_variables_are_placed"
   ],
   "note": "the two-material modulus reaches 70070, above the nominal 70000"
  },
  {
   "property": "C105",
   "status": "proved",
   "theorems": [
    "compliance_is_strain_energy",
    "more_material_less_compliance"
   ],
   "note": ""
  },
  {
   "property": "C106",
   "status": "partial",
   "theorems": [
    "von_mises_reported",
    "von_mises_outcomes",
    "plate_von_mises_refuted",
    "cell_average_between"
   ],
   "note": "holds for freecad, box and multi_material; false for plate (a different law is used for reporting); the eigen case raises TypeError"
  },
  {
   "property": "C107",
   "status": "proved",
   "theorems": [
    "energy_is_split",
    "stiffness_degradation",
    "fracture_is_irreversible",
    "local_damage_law",
    "damage_problem_unique"
   ],
   "note": "eigenvalues by contract"
  },
  {
   "property": "C108",
   "status": "proved",
   "theorems": [
    "tensor_function_well_defined",
    "tensor_function_polynomial",
    "tensor_function_derivative",
    "tensor_function_derivative_coaxial"
   ],
   "note": "The function has to be differentiable at the eigenvalues; the direction symmetric, as the rule symmetrises it."
  },
  {
   "property": "C109",
   "status": "proved",
   "theorems": [
    "wall_grows",
    "wall_step_solves_active_part",
    "wall_step_succeeds"
   ],
   "note": "The laser-on steps; the solver is an arbitrary function returning one value per node."
  },
  {
   "property": "C110",
   "status": "partial",
   "theorems": [
    "thin_wall_heat",
    "bare_plate_heat",
    "bare_plate_pairing_refuted",
    "thin_wall_cooling_refuted"
   ],
   "note": "True of the laser-on problem of thin_wall.py. False of bare_plate.py, which passes its two flux functions in the other order, so the beam heats all exterior faces and convection acts on the top only; and the cooling problem of thin_wall.py cannot be constructed (IndexError)."
  },
  {
   "property": "C111",
   "status": "proved",
   "theorems": [
    "orientation_matrix",
    "orientation_axis_angle"
   ],
   "note": ""
  },
  {
   "property": "C112",
   "status": "proved",
   "theorems": [
    "lattice_elasticity",
    "lattice_stress"
   ],
   "note": ""
  },
  {
   "property": "C113",
   "status": "partial",
   "theorems": [
    "slip_dissipates",
    "slip_power_law",
    "slip_keeps_volume",
    "single_slip_history_keeps_volume",
    "joint_slip_keeps_volume_refuted"
   ],
   "note": "Dissipation, the power law and the zero trace hold always. The plastic volume is kept when one system slips per step; with two crossed systems it is not (joint_slip_keeps_volume_refuted)."
  },
  {
   "property": "C114",
   "status": "partial",
   "theorems": [
    "hardening_matrix",
    "hardening_monotone",
    "hardening_isotropic",
    "hardening_saturates_partial",
    "hardening_saturates_refuted"
   ],
   "note": "The bound by t_sat needs h times the sum of the slips of a step to be at most t_sat; hardening_saturates_refuted gives a step that passes it."
  },
  {
   "property": "C115",
   "status": "proved",
   "theorems": [
    "local_solve_tolerance",
    "damped_newton_step",
    "elastic_predictor"
   ],
   "note": "Termination of the local iteration is not claimed; not-a-number values, for which the loop stops at once, are not modelled."
  },
  {
   "property": "C116",
   "status": "proved",
   "theorems": [
    "crystal_stress_form",
    "crystal_frame_indifference",
    "crystal_unstrained"
   ],
   "note": ""
  },
  {
   "property": "C117",
   "status": "proved",
   "theorems": [
    "local_residual_differentiable",
    "local_tangent_exact",
    "local_jacobian_at_rest"
   ],
   "note": "For tangents of the displacement gradient; the tangents of the old state are zero."
  },
  {
   "property": "C118",
   "status": "proved",
   "theorems": [
    "deformed_moments_balance",
    "crystal_moments_balance",
    "hyperelastic_moments_balance",
    "crystal_state_and_residual_agree"
   ],
   "note": ""
  },
  {
   "property": "C119",
   "status": "partial",
   "theorems": [
    "second_simulation",
    "one_step_simulation_repeats",
    "repeated_simulation_refuted"
   ],
   "note": "False of the code for two or more load steps: second_simulation says what the second call returns."
  },
  {
   "property": "C120",
   "status": "proved",
   "theorems": [
    "rve_pairs_opposite_sides",
    "rve_constraints_exact",
    "rve_mean_deformation",
    "rve_displacement_jumps"
   ],
   "note": "box mesh with the documented Basix tables and a rule exact for degree 2"
  },
  {
   "property": "C121",
   "status": "proved",
   "theorems": [
    "multipliers_do_no_work",
    "rve_solution_is_stationary",
    "rve_mean_stress",
    "rve_uniform_material",
    "rve_energy_frame_indifferent",
    "rve_energy_sign"
   ],
   "note": "jax.grad is an argument with the contract psi_contract; the family of solutions is assumed differentiable"
  },
  {
   "property": "C122",
   "status": "partial",
   "theorems": [
    "inclusion_is_union_of_cubes",
    "sample_is_tiled_by_the_cell",
    "traction_uses_face_moduli_partial",
    "traction_uses_face_moduli_refuted"
   ],
   "note": "the moduli of the faces are right for ratio <= 1/2 and wrong beyond"
  },
  {
   "property": "C123",
   "status": "proved",
   "theorems": [
    "six_components_round_trip",
    "surrogate_frame_indifferent",
    "surrogate_exerts_no_moment",
    "surrogate_reproduces_cell_energy"
   ],
   "note": "the network is an arbitrary differentiable function"
  },
  {
   "property": "C124",
   "status": "partial",
   "theorems": [
    "retry_rescues_a_sample_refuted",
    "collection_ends_refuted",
    "collection_complete_partial",
    "data_are_partitioned"
   ],
   "note": "the retry repeats the first solve; the loop is endless when a sample fails; complete when none does"
  },
  {
   "property": "C125",
   "status": "partial",
   "theorems": [
    "scaled_training_values",
    "percent_error_meaning_partial",
    "percent_error_finite_refuted"
   ],
   "note": "not finite at the smallest training value"
  },
  {
   "property": "C126",
   "status": "partial",
   "theorems": [
    "polynomial_ansatz_at_rest_refuted"
   ],
   "note": "two of the ten terms are 4 and 16 at rest"
  },
  {
   "property": "C127",
   "status": "proved",
   "theorems": [
    "tensile_curve"
   ],
   "note": "solver, energy and force are arguments"
  },
  {
   "property": "C128",
   "status": "proved",
   "theorems": [
    "box_side_selected",
    "isclose_finds_side"
   ],
   "note": ""
  },
  {
   "property": "C129",
   "status": "proved",
   "theorems": [
    "box_divergence_theorem",
    "traction_patch_test"
   ],
   "note": ""
  },
  {
   "property": "C130",
   "status": "proved",
   "theorems": [
    "uniform_sample_force",
    "uniform_sample_slope",
    "tensile_energy_slope"
   ],
   "note": "the residual and energy are those of mode dns; existence of the family of solutions is a hypothesis"
  },
  {
   "property": "C131",
   "status": "proved",
   "theorems": [
    "forming_step",
    "forming_histories"
   ],
   "note": "states over R; jax.lax.cond evaluates one branch"
  },
  {
   "property": "C132",
   "status": "proved",
   "theorems": [
    "elastic_paths"
   ],
   "note": ""
  },
  {
   "property": "C133",
   "status": "proved",
   "theorems": [
    "forming_frame"
   ],
   "note": ""
  },
  {
   "property": "C134",
   "status": "partial",
   "theorems": [
    "volume_steps_refuted",
    "volume_steps_harden"
   ],
   "note": "false of the code: f_bar is unused; volume_steps_harden gives the witness for every state and the relation to the intended trial tensor"
  },
  {
   "property": "C135",
   "status": "partial",
   "theorems": [
    "elastic_energy_refuted"
   ],
   "note": "false of the code"
  },
  {
   "property": "C136",
   "status": "proved",
   "theorems": [
    "forming_runs",
    "forming_moments",
    "forming_rigid_motion",
    "single_not_unique"
   ],
   "note": "the nonlinear solver is not called in the loop of the model: solutions are arguments"
  },
  {
   "property": "C137",
   "status": "partial",
   "theorems": [
    "top_displacement",
    "top_meets_walls_refuted",
    "punch_traction",
    "load_programme"
   ],
   "note": "the agreement with the walls is false by 1e-10 scale Lx"
  },
  {
   "property": "C138",
   "status": "proved",
   "theorems": [
    "stress_constraint_tracks"
   ],
   "note": "the stresses are an arbitrary function of the design"
  },
  {
   "property": "C139",
   "status": "partial",
   "theorems": [
    "constraint_gradients_partial",
    "constraint_gradients_refuted"
   ],
   "note": "exactness of the stress row is false; the factor is bounded"
  },
  {
   "property": "C140",
   "status": "partial",
   "theorems": [
    "allowed_stress_partial",
    "allowed_stress_refuted"
   ],
   "note": "false as stated; bound with the factor n^(1/12)"
  },
  {
   "property": "C141",
   "status": "proved",
   "theorems": [
    "material_constraints"
   ],
   "note": ""
  },
  {
   "property": "C142",
   "status": "proved",
   "theorems": [
    "vibration_forms",
    "vibration_matrices"
   ],
   "note": ""
  },
  {
   "property": "C143",
   "status": "proved",
   "theorems": [
    "eigenvalue_derivative"
   ],
   "note": "jax.grad is an argument with the contract that it returns partial derivatives"
  },
  {
   "property": "C144",
   "status": "proved",
   "theorems": [
    "frequency_constraint",
    "frequency_gradient",
    "too_few_pairs"
   ],
   "note": "the eigensolver is an argument"
  },
  {
   "property": "C145",
   "status": "partial",
   "theorems": [
    "kept_modes_partial",
    "kept_modes_refuted"
   ],
   "note": "true when exactly three of the ten eigenvalues are at most 20; false in general"
  },
  {
   "property": "C146",
   "status": "proved",
   "theorems": [
    "plastic_load_sequence"
   ],
   "note": "the nonlinear solver is an argument; equilibrium is a hypothesis where it is used"
  },
  {
   "property": "C147",
   "status": "partial",
   "theorems": [
    "inspect_previous_partial",
    "inspect_final_refuted"
   ],
   "note": "false; the stress shown is that of the step before"
  },
  {
   "property": "C148",
   "status": "proved",
   "theorems": [
    "backprop_ignores_traction"
   ],
   "note": "jax.vjp is an argument; contract: an added constant does not change the cotangent"
  },
  {
   "property": "C149",
   "status": "proved",
   "theorems": [
    "poisson_solvable_iff",
    "poisson_solved"
   ],
   "note": "exact linear algebra and an exact jax.jacfwd are hypotheses"
  },
  {
   "property": "C150",
   "status": "proved",
   "theorems": [
    "elasticity_solved",
    "elasticity_floating"
   ],
   "note": "exact linear algebra and an exact jax.jacfwd are hypotheses"
  },
  {
   "property": "C151",
   "status": "proved",
   "theorems": [
    "poisson_minimum",
    "elasticity_minimum"
   ],
   "note": "box meshes of HEX8"
  },
  {
   "property": "C152",
   "status": "proved",
   "theorems": [
    "reverse_matrix_invertible"
   ],
   "note": "exact jax.jacfwd is a hypothesis"
  },
  {
   "property": "C153",
   "status": "proved",
   "theorems": [
    "infer_forward_linear"
   ],
   "note": ""
  },
  {
   "property": "C154",
   "status": "proved",
   "theorems": [
    "infer_gradient_exact",
    "infer_stationary_iff_minimum",
    "infer_taylor_test"
   ],
   "note": "jax.vjp enters as a contract: it transposes the directional derivative whenever that derivative exists and is linear"
  },
  {
   "property": "C155",
   "status": "proved",
   "theorems": [
    "infer_source_not_unique",
    "infer_affine_source_fits"
   ],
   "note": ""
  },
  {
   "property": "C156",
   "status": "proved",
   "theorems": [
    "L2_is_a_norm"
   ],
   "note": ""
  },
  {
   "property": "C157",
   "status": "partial",
   "theorems": [
    "wrapper_right_in_step",
    "wrapper_derivative_refuted"
   ],
   "note": "proved for calls in step; refuted for a derivative asked elsewhere than at the last objective"
  },
  {
   "property": "C158",
   "status": "proved",
   "theorems": [
    "inverse_scaling"
   ],
   "note": ""
  },
  {
   "property": "C159",
   "status": "proved",
   "theorems": [
    "inverse_translation"
   ],
   "note": ""
  },
  {
   "property": "C160",
   "status": "proved",
   "theorems": [
    "inverse_gradient_identities"
   ],
   "note": "stated where the reduced matrix is invertible"
  },
  {
   "property": "C161",
   "status": "proved",
   "theorems": [
    "inverse_displacement_gradient"
   ],
   "note": "the difference quotient is stated for a forward map that returns the translated solution"
  },
  {
   "property": "C162",
   "status": "proved",
   "theorems": [
    "inverse_rest_regular"
   ],
   "note": ""
  },
  {
   "property": "C163",
   "status": "proved",
   "theorems": [
    "inverse_reactions"
   ],
   "note": ""
  },
  {
   "property": "C164",
   "status": "proved",
   "theorems": [
    "rve_hooke"
   ],
   "note": ""
  },
  {
   "property": "C165",
   "status": "partial",
   "theorems": [
    "relaxation_result",
    "relaxation_loose_tolerance_refuted"
   ],
   "note": "Proved for tolerances below one; refuted for tolerances of one and above, where the initial error is set to 1 by hand."
  },
  {
   "property": "C166",
   "status": "proved",
   "theorems": [
    "relaxation_stable"
   ],
   "note": "dolfin assembly is an argument; linear forces."
  },
  {
   "property": "C167",
   "status": "partial",
   "theorems": [
    "relaxation_terminates",
    "relaxation_converges_refuted"
   ],
   "note": "Termination proved; convergence in every case refuted by a spring that stops out of balance (in exact arithmetic)."
  },
  {
   "property": "C168",
   "status": "partial",
   "theorems": [
    "solver_relaxation_refuted"
   ],
   "note": "Refuted: the velocity update is commented out and printInfo is called without two of its arguments."
  },
  {
   "property": "C169",
   "status": "proved",
   "theorems": [
    "manufactured_residual",
    "manufactured_solved"
   ],
   "note": "HEX8 boxes; the example's own exponential term and its tetrahedra are outside the family (the nodal values are then not exact)."
  },
  {
   "property": "C170",
   "status": "proved",
   "theorems": [
    "manufactured_errors",
    "convergence_order"
   ],
   "note": "Two-point Gauss rule (gauss_points) and solutions exact at the nodes, which C169 provides; the example runs TET4 and TET10, not covered."
  },
  {
   "property": "C171",
   "status": "proved",
   "theorems": [
    "poisson_maximum"
   ],
   "note": "Eight-node hexahedra, exact linear solves, quadrature weights that are not negative."
  },
  {
   "property": "C172",
   "status": "partial",
   "theorems": [
    "stretched_cells_refuted"
   ],
   "note": "False of the code: refuted for every 2 x 2 x 2 box whose cells are not cubes."
  },
  {
   "property": "C173",
   "status": "proved",
   "theorems": [
    "tolerance_picks_side"
   ],
   "note": "Exact arithmetic; at the bottom of the demo the thickness equals the tolerance, so that rounding decides there."
  },
  {
   "property": "C174",
   "status": "partial",
   "theorems": [
    "thick_top_refuted",
    "thin_top_heat"
   ],
   "note": "False of the demo: refuted for every box mesh whose cells have between half and all of the tolerance as thickness; thin_top_heat is the positive part for thicker cells."
  },
  {
   "property": "C175",
   "status": "proved",
   "theorems": [
    "thermal_step_solved",
    "damage_step_solved"
   ],
   "note": "Eight-node hexahedra, exact linear solves and exact derivatives, quadrature weights that are not negative."
  },
  {
   "property": "C176",
   "status": "partial",
   "theorems": [
    "heating_cools_refuted"
   ],
   "note": "False of the code: refuted for every box mesh, laser and time step below the bound."
  },
  {
   "property": "C177",
   "status": "proved",
   "theorems": [
    "insulated_steps_contract"
   ],
   "note": "No boundary fluxes; with the explicit convective flux of the demo nothing is claimed."
  },
  {
   "property": "C178",
   "status": "proved",
   "theorems": [
    "poisson_mesh_solvable",
    "poisson_mesh_solved"
   ],
   "note": "Exact linear algebra and floats; positive Jacobians at the quadrature points, exact rule of the documented degree with non-negative weights."
  },
  {
   "property": "C179",
   "status": "proved",
   "theorems": [
    "thermal_mesh_step",
    "damage_mesh_step",
    "insulated_mesh_contract"
   ],
   "note": "Same assumptions on the mesh; the thermal demo itself uses HEX8."
  },
  {
   "property": "C180",
   "status": "proved",
   "theorems": [
    "elastic_mesh_braced",
    "elastic_simplex_solved",
    "secured_tetrahedra"
   ],
   "note": "Sufficiency is proved for TET4 and TRI3; for box meshes of HEX8 see C150."
  },
  {
   "property": "C181",
   "status": "proved",
   "theorems": [
    "periodic_poisson_regular",
    "independent_constraints_cases",
    "independent_constraints_reach"
   ],
   "note": "equivalence for every Lagrange mesh; criteria for independence and three ways to lose it; case: two separate tetrahedra tied by one pair"
  },
  {
   "property": "C182",
   "status": "proved",
   "theorems": [
    "multipliers_exist",
    "periodic_linear_solved",
    "periodic_poisson_solved"
   ],
   "note": "the Krylov solver is idealised: it returns a solution whenever there is one; case: the tied tetrahedra take the value of the one held node"
  },
  {
   "property": "C183",
   "status": "partial",
   "theorems": [
    "periodic_demo_regular_refuted",
    "periodic_cell_regular_refuted"
   ],
   "note": "false of the code: the constraints of both shipped problems are redundant; witnesses: the unit square of two six-node triangles and the cube of eight elements"
  },
  {
   "property": "C184",
   "status": "partial",
   "theorems": [
    "periodic_demo_run_refuted",
    "periodic_demo_solution"
   ],
   "note": "the shipped call raises an exception; proved for use_petsc=False; the gmsh mesh is any mesh of six-node triangles linked to the bottom or the top"
  },
  {
   "property": "C185",
   "status": "partial",
   "theorems": [
    "correction_free_refuted",
    "correction_leaves",
    "correction_free_iff"
   ],
   "note": "false of the code: compact Laplacian in the pressure equation, central gradient in the correction; the remaining divergence is proved exactly"
  },
  {
   "property": "C186",
   "status": "proved",
   "theorems": [
    "correction_energy"
   ],
   "note": "for exact solutions of the pressure equation"
  },
  {
   "property": "C187",
   "status": "proved",
   "theorems": [
    "pressure_well_posed",
    "pressure_solve_exact"
   ],
   "note": "bicgstab is any function that solves the solvable systems of the mesh"
  },
  {
   "property": "C188",
   "status": "proved",
   "theorems": [
    "prediction_well_posed",
    "prediction_energy",
    "prediction_solid",
    "velocity_update_energy"
   ],
   "note": "bicgstab is any function that solves the solvable systems of the mesh"
  },
  {
   "property": "C189",
   "status": "partial",
   "theorems": [
    "solid_at_rest_refuted",
    "prediction_solid"
   ],
   "note": "false of the code: the prediction keeps solid cells at rest, the correction does not"
  },
  {
   "property": "C190",
   "status": "proved",
   "theorems": [
    "growing_flux_unique",
    "growing_flux_level"
   ],
   "note": ""
  },
  {
   "property": "C191",
   "status": "proved",
   "theorems": [
    "exchange_solvable",
    "exchange_solved"
   ],
   "note": "jax.jacfwd and the linear solvers enter with their contracts"
  },
  {
   "property": "C192",
   "status": "partial",
   "theorems": [
    "cauchy_example_unique_refuted",
    "cauchy_example_nonnegative"
   ],
   "note": "false of the code: two solutions on three triangles; proved for solutions with a non-negative sum on the sides"
  },
  {
   "property": "C193",
   "status": "proved",
   "theorems": [
    "cylinder_mass",
    "cylinder_start_mass"
   ],
   "note": ""
  },
  {
   "property": "C194",
   "status": "proved",
   "theorems": [
    "cylinder_momentum",
    "free_flow_momentum"
   ],
   "note": ""
  },
  {
   "property": "C195",
   "status": "proved",
   "theorems": [
    "cylinder_returns"
   ],
   "note": ""
  },
  {
   "property": "C196",
   "status": "proved",
   "theorems": [
    "cylinder_rest"
   ],
   "note": ""
  },
  {
   "property": "C197",
   "status": "proved",
   "theorems": [
    "cylinder_symmetric",
    "cylinder_symmetric_start"
   ],
   "note": ""
  },
  {
   "property": "C198",
   "status": "partial",
   "theorems": [
    "cylinder_nonnegative_refuted",
    "cylinder_nonnegative_slow"
   ],
   "note": "false of the code: the first step from the initial state without noise gives a negative population; proved for tau >= 1 and moderate speeds"
  },
  {
   "property": "C199",
   "status": "proved",
   "theorems": [
    "numba_triplets",
    "numba_triplet_count"
   ],
   "note": "exact_jacobians is the contract of jax.jacfwd"
  },
  {
   "property": "C200",
   "status": "proved",
   "theorems": [
    "numba_residual_agrees"
   ],
   "note": "body force and Neumann integral are those of the core"
  },
  {
   "property": "C201",
   "status": "proved",
   "theorems": [
    "numba_energy",
    "numba_symmetric",
    "numba_nonnegative",
    "numba_translations"
   ],
   "note": "for arbitrary tables"
  },
  {
   "property": "C202",
   "status": "proved",
   "theorems": [
    "melt_pool_walls",
    "thermocapillary_balance",
    "velocity_bc_forms_agree"
   ],
   "note": ""
  },
  {
   "property": "C203",
   "status": "proved",
   "theorems": [
    "surface_force",
    "surface_shear_direction"
   ],
   "note": ""
  },
  {
   "property": "C204",
   "status": "partial",
   "theorems": [
    "uniform_gradient_inner",
    "uniform_gradient_rim",
    "uniform_gradient_refuted"
   ],
   "note": "false at the rim of the window: half of the shear; proved inside"
  },
  {
   "property": "C205",
   "status": "proved",
   "theorems": [
    "beam_hooke",
    "beam_work_monotone",
    "beam_energy_monotone",
    "beam_energy_range"
   ],
   "note": "for existing discrete solutions"
  },
  {
   "property": "C206",
   "status": "proved",
   "theorems": [
    "uniform_density_same",
    "proportional_density_same"
   ],
   "note": ""
  },
  {
   "property": "C207",
   "status": "proved",
   "theorems": [
    "set_params_cells",
    "beam_vars",
    "volume_constraint_inactive",
    "beam_error_zero"
   ],
   "note": "the selection of the line is any predicate on nodes"
  },
  {
   "property": "C208",
   "status": "proved",
   "theorems": [
    "gram_form",
    "gram_semidefinite",
    "gram_blind_to_mirrors",
    "gram_one_image"
   ],
   "note": ""
  },
  {
   "property": "C209",
   "status": "proved",
   "theorems": [
    "vgg_layers_kept",
    "loss_layers_transparent",
    "style_losses",
    "content_losses"
   ],
   "note": "arrays of different shapes are an error in the model"
  },
  {
   "property": "C210",
   "status": "proved",
   "theorems": [
    "loss_nonneg",
    "loss_zero_at_target"
   ],
   "note": ""
  },
  {
   "property": "C211",
   "status": "partial",
   "theorems": [
    "losses_add_up",
    "report_needs_both_kinds",
    "report_total_refuted",
    "pixels_binary"
   ],
   "note": "refuted: calculate_losses raises TypeError if there is no content layer or no style layer"
  }
 ]
}
