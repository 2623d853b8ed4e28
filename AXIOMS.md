# Axioms used by each theorem

Output of `Print Assumptions`, collected from the build. All are axioms of the Coq standard library.

- **1** `ClassicalDedekindReals.sig_forall_dec`
- **2** `ClassicalDedekindReals.sig_not_dec`
- **3** `ClassicalEpsilon.constructive_indefinite_description`
- **4** `Classical_Prop.classic`
- **5** `FunctionalExtensionality.functional_extensionality_dep`

## MeshProps

| theorem | axioms |
|---|---|
| `box_mesh_valid` | 1, 5 |
| `rectangle_mesh_valid` | 1, 5 |
| `rectangle_mesh_conforming` | 1, 5 |
| `box_mesh_conforming` | 1, 5 |
| `box_mesh_volume` | 1, 5 |
| `lattice_id_roundtrip` | none |
| `lattice_xyz_roundtrip` | none |
| `vmapped_kernel_lands_on_own_cell` | none |
| `centroid_of_lattice_cell` | 1, 5 |
| `cylinder_renumbering_coherent` | none |

## LbmProps

| theorem | axioms |
|---|---|
| `vmapped_lattice_kernel` | none |
| `d3q19_velocity_set` | 1, 5 |
| `d3q19_isotropy` | 1, 5 |
| `equilibrium_f_moments` | 1, 5 |
| `equilibrium_h_moments` | 1, 5 |
| `collision_balance` | 1, 5 |
| `collision_gas_wall_zero` | 1, 5 |
| `thermal_collision_balance` | 1, 5 |
| `thermal_collision_gas_wall_zero` | 1, 5 |
| `streaming_conserves_mass` | 1, 5 |
| `collision_and_streaming_conserve_mass` | 1, 5 |
| `total_mass_restored` | 1, 5 |
| `total_mass_restored_refuted` | 1, 5 |
| `walls_never_change` | 1, 5 |
| `gas_and_wall_hold_nothing` | 1, 5 |
| `liquid_gas_separated_before_cleanup_partial` | 1, 5 |
| `liquid_gas_separated_refuted` | 1, 5 |
| `phase_transition_rules` | 1, 5 |
| `bulk_cells_stay` | 1, 5 |
| `melt_history_exact` | 1, 5 |
| `temperature_recovery` | 1, 5 |

## LbmAuxProps

| theorem | axioms |
|---|---|
| `temperature_continuous_refuted` | 1, 5 |
| `read_path_follows_way_points` | 1, 2, 5 |
| `read_path_rejects_single_point` | 1, 2, 5 |
| `laser_path_step_count` | 1, 2, 5 |
| `steps_equal_travel_time_refuted` | 1, 2, 5 |
| `outputs_are_consecutive` | none |
| `unit_conversion_consistent` | 1, 5 |
| `enthalpy_streaming_balance` | 1, 5 |
| `bulk_force_is_gravity` | 1, 2, 5 |
| `marangoni_is_tangential` | 1, 2, 5 |
| `heat_source_rules` | 1, 2, 5 |
| `flat_interface_has_no_curvature` | 1, 2, 4, 5 |
| `temperature_gradient_ignores_gas_and_wall` | 1, 5 |

## GrainProps

| theorem | axioms |
|---|---|
| `grains_are_connected_components` | none |
| `grains_of_any_graph` | none |
| `adjacency_is_face_neighbours` | none |
| `face_neighbours_symmetric` | none |
| `grain_volumes_add_up` | 1, 5 |
| `initial_state_one_hot` | 1 |
| `wrong_grain_count_rejected` | none |
| `layered_mesh_consistent` | 1, 5 |
| `layered_mesh_unequal_layers_refuted` | 1, 5 |
| `stacked_grain_numbers_unique_refuted` | 1 |

## PfProps

| theorem | axioms |
|---|---|
| `laplacian_conservative` | 1, 2, 4, 5 |
| `laplacian_vanishes_on_uniform` | 1, 2, 4, 5 |
| `no_orientation_from_nothing_euler` | 1, 2, 4, 5 |
| `no_orientation_from_nothing_rk4` | 1, 2, 4, 5 |
| `integrators_return_new_time` | 1, 5 |
| `euler_order_one` | 1, 5 |
| `rk4_order_four` | 1, 5 |
| `interpolation_inside_interval_partial` | 1, 5 |
| `coupled_temperature_extrapolates` | 1, 5 |
| `temperature_between_snapshots_refuted` | 1, 5 |
| `convert_temperature_keeps_location` | none |
| `order_parameters_stay_in_unit_interval` | 1, 2, 4, 5 |
| `anisotropy_factor_bounds` | 1, 2, 4, 5 |
| `liquid_fraction_and_mobility_bounds` | 1, 2, 4, 5 |
| `local_energy_gradient_is_derivative` | 1, 5 |
| `phase_field_is_gradient_flow` | 1, 2, 4, 5 |
| `interface_term_symmetric_and_dissipative` | 1, 2, 4, 5 |
| `written_orientation_is_dominant` | 1, 5 |

## CfdProps

| theorem | axioms |
|---|---|
| `mesh_neighbours` | none |
| `mesh_neighbours_mutual` | none |
| `mesh_boundary_faces_once` | none |
| `mesh_surface_sets_partition` | none |
| `mesh_face_centres` | 1, 5 |
| `mesh2_neighbours` | none |
| `mesh2_boundary_faces_once` | none |
| `diffusion_conservative` | 1, 5 |
| `diffusion_vanishes_on_constants` | 1, 5 |
| `diffusion_symmetric` | 1, 5 |
| `diffusion_dissipative` | 1, 5 |
| `diffusion_routines_agree` | 1, 5 |
| `ghost_cells_realise_bc` | 1, 5 |
| `convection_conservative` | 1, 5 |
| `convection_of_constant` | 1, 5 |
| `convection_face_value_linear` | 1, 5 |
| `driver_convection_conservative` | 1, 5 |
| `window_inside_domain` | 1, 5 |
| `window_contains_laser` | 1, 5 |
| `window_one_cell_contains_laser_refuted` | 1, 5 |
| `step_clock_frame_melted` | 1, 2, 5 |
| `run_advances_time` | 1, 2, 5 |
| `melted_fraction_is_running_maximum` | 1, 2, 5 |
| `melted_fraction_in_unit_interval` | 1, 2, 5 |
| `fluid_fraction_by_temperature` | 1, 5 |
| `matrix_is_derivative_of_residual` | 1, 5 |
| `jacobi_uses_matrix_diagonal` | 1, 5 |
| `linear_solve_leaves_no_residual` | 1, 5 |
| `residual_global_balance` | 1, 5 |
| `energy_step_global_balance` | 1, 5 |
| `newton_loop_bounded` | 1, 2, 5 |
| `newton_loop_keeps_exact_start` | 1, 2, 5 |
| `energy_dirichlet_raises` | 1, 5 |
| `energy_dirichlet_usable_refuted` | 1, 5 |
| `energy_dirichlet_usable_partial` | 1, 5 |
| `driver_solves_defined` | 1, 2, 5 |
| `gradient_exact_on_linear_partial` | 1, 5 |
| `gradient_ignores_boundary_conditions` | 1, 5 |
| `gradient_honours_bc_refuted` | 1, 5 |
| `face_velocity_component_partial` | 1, 5 |
| `face_velocity_component_refuted` | 1, 5 |
| `body_source_off_raises` | 1, 2, 5 |
| `run_past_laser_off_fails` | 1, 2, 5 |
| `pressure_source_sums_to_zero` | 1, 5 |
| `pressure_equation_compatible` | 1, 5 |
| `energy_maximum_principle` | 1, 5 |
| `energy_minimum_principle` | 1, 5 |
| `flow_left_behind_is_frozen` | 1, 2, 5 |
| `solid_cells_at_rest_refuted` | 1, 2, 5 |
| `ambient_equilibrium` | 1, 2, 5 |

## GammaProps

| theorem | axioms |
|---|---|
| `gamma_ambient_equilibrium` | 1, 2, 5 |
| `gamma_maximum_principle` | 1, 2, 5 |
| `gamma_deviation_never_grows` | 1, 2, 5 |
| `gamma_laser_only_heats` | 1, 2, 5 |
| `gamma_liquid_fraction_unit` | 1, 5 |
| `gamma_heat_balance_weighted` | 1, 2, 5 |
| `gamma_heat_balance_partial` | 1, 2, 5 |
| `gamma_heat_balance_refuted` | 1, 2, 5 |
| `scan_direction_unit_partial` | 1, 2, 5 |
| `scan_direction_unit_refuted` | 1, 2, 5 |
| `scan_direction_dwell_is_nan` | 1, 2, 5 |

## FemProps

| theorem | axioms |
|---|---|
| `batched_evaluation_is_direct` | none |
| `batched_evaluation_without_cells_raises` | none |
| `batched_evaluation_wrong_size_raises` | none |
| `residual_is_sum_over_corners` | 1, 2, 5 |
| `matrix_acts_as_assembled_jacobians` | 1, 2, 5 |
| `assembled_matrix_is_derivative` | 1, 2, 5 |
| `assembled_residual_affine` | 1, 2, 5 |
| `internal_forces_self_equilibrated` | 1, 2, 5 |
| `patch_test_gradient` | 1, 5 |
| `affine_field_value_exact` | 1, 5 |
| `singular_element_raises` | 1, 5 |
| `dirichlet_nodes_exact` | 1 |
| `dirichlet_length_mismatch_raises` | 1 |
| `periodic_pairs_correct` | 1, 2, 5 |
| `selected_faces_exact_partial` | none |
| `selected_faces_on_boundary_refuted` | 1, 2, 5 |
| `body_force_resultant_exact` | 1, 5 |
| `body_force_from_field_resultant_exact` | 1, 5 |
| `traction_resultant_exact` | 1, 2, 5 |
| `total_resultant_exact` | 1, 2, 5 |
| `virtual_work_identity` | 1, 2, 5 |
| `internal_moments_vanish` | 1, 2, 5 |
| `nanson_scale_is_area` | 1, 2, 5 |
| `nanson_scale_is_length` | 1, 2, 5 |

## SolverProps

| theorem | axioms |
|---|---|
| `constrained_residual_exact` | 1, 5 |
| `constrained_operator_exact` | 1, 5 |
| `constrained_operator_is_derivative` | 1, 5 |
| `preconditioner_is_diagonal` | 1, 5 |
| `problem_conditions_from_locations` | 1, 2, 5 |
| `linear_solve_meets_equation_and_conditions` | 1, 2, 5 |
| `newton_solve_of_affine_problem_stops` | 1, 2, 5 |
| `linear_guess_solves_loaded_system` | 1, 5 |
| `starting_guess_solves_constrained_rows` | 1, 5 |
| `finite_element_linear_solve` | 1, 2, 5 |
| `newton_returns_small_finite_residual_partial` | 1, 2, 5 |
| `linear_solver_returns_large_residual_refuted` | 1, 2, 5 |
| `linear_solver_returns_finite_partial` | 1, 5 |
| `nan_residual_stops_plain_solver` | 1, 5 |
| `periodic_solver_returns_nan_refuted` | 1, 5 |
| `augmented_residual_exact` | 1, 5 |
| `augmented_matrix_is_derivative` | 1, 5 |
| `stationary_point_satisfies_all_conditions` | 1, 5 |
| `periodic_linear_solve` | 1, 5 |
| `periodic_newton_solve` | 1, 2, 5 |
| `finite_element_periodic_solve` | 1, 2, 5 |
| `periodic_with_petsc_raises_refuted` | 1, 5 |
| `reverse_mode_exact` | 1, 5 |
| `forward_mode_exact` | 1, 5 |
| `forward_and_reverse_modes_adjoint` | 1, 5 |
| `constrained_residual_differentiable` | 1, 5 |
| `gradient_with_periodic_conditions_refuted` | 1, 5 |
| `damping_within_bounds` | 1, 2, 5 |
| `dynamic_relaxation_returns_refuted` | none |

## MmaProps

| theorem | axioms |
|---|---|
| `bounds_bracket_design` | 1, 5 |
| `asymptotes_keep_distance` | 1, 5 |
| `asymptotes_adapt` | 1, 5 |
| `subproblem_iterates_interior` | 1, 2, 5 |
| `optimize_stays_in_unit_box` | 1, 2, 4, 5 |
| `optimize_passes_exact` | 1, 2, 4, 5 |
| `subproblem_first_order_consistent` | 1, 5 |
| `mmasub_subproblem_well_posed` | 1, 5 |
| `filter_weights_nonnegative` | 1, 2, 4, 5 |
| `filter_is_cone_when_few_neighbours` | 1, 2, 4, 5 |
| `filter_preserves_total` | 1, 5 |
| `filter_radius_is_cell_size` | 1, 2, 4, 5 |
| `newton_direction_is_exact` | 1, 2, 5 |
| `optimize_completes` | 1, 2, 4, 5 |
| `subsolv_near_optimal_partial` | 1, 2, 5 |
| `near_kkt_is_near_optimal` | 1, 5 |
| `filter_needs_twenty_cells_refuted` | 1, 2, 4, 5 |

## BasisProps

| theorem | axioms |
|---|---|
| `node_order_matches_mesh` | none |
| `reorder_inds_inverts` | none |
| `face_lists_match_facets` | 1, 2, 5 |
| `shape_tables_are_nodal` | 1, 2, 5 |
| `tables_meet_fem_assumptions` | 1, 2, 5 |
| `face_tables_live_on_facets` | 1, 2, 5 |
| `affine_cell_measures` | 1, 2, 5 |
| `box_mesh_quadrature_volume` | 1, 2, 5 |
| `rectangle_mesh_quadrature_area` | 1, 2, 5 |
| `tet4_quality_is_six_volumes` | 1, 2, 5 |
| `tet4_quality_orientation` | 1, 5 |
| `meshio_types_match` | none |
| `stiffness_fully_integrated` | 1, 2, 5 |
| `mass_fully_integrated_on_boxes` | 1, 2, 5 |
| `tet4_mass_integration_refuted` | 1, 2, 5 |

## MatProps

| theorem | axioms |
|---|---|
| `linear_elasticity_laws` | 1, 5 |
| `linear_elasticity_isotropic` | 1, 5 |
| `linear_elasticity_constants` | 1, 5 |
| `elastic_stiffness_symmetric_psd` | 1, 2, 5 |
| `rigid_motions_cost_nothing` | 1, 2, 5 |
| `return_map_radial` | 1, 2, 5 |
| `plastic_histories_admissible` | 1, 2, 5 |
| `maximum_plastic_dissipation` | 1, 2, 5 |
| `return_map_contraction` | 1, 2, 5 |
| `plastic_residual` | 1, 2, 5 |
| `plastic_residual_monotone` | 1, 2, 5 |
| `plastic_update_idempotent` | 1, 2, 5 |
| `average_stress_admissible` | 1, 2, 5 |
| `hyperelastic_energy` | 1, 2, 4, 5 |
| `hyperelastic_stress` | 1, 2, 4, 5 |
| `hyperelastic_rest_2d_refuted` | 1, 2, 4, 5 |
| `cellular_solid_energy` | 1, 2, 4, 5 |
| `surface_area_is_area` | 1, 2, 5 |
| `traction_outcomes` | 1, 2, 5 |
| `traction_is_force_partial` | 1, 2, 5 |
| `traction_of_affine_field` | 1, 2, 5 |
| `traction_is_force_refuted` | 1, 2, 5 |
| `l2_error_is_a_norm` | 1, 2, 5 |
| `h1_error_equivalent` | 1, 2, 5 |
| `affine_fields_have_no_error` | 1, 2, 5 |
| `phase_transitions` | 1, 5 |
| `phase_follows_history` | 1, 2, 5 |
| `thermo_stress_update` | 1, 2, 5 |
| `thermo_histories_admissible` | 1, 2, 5 |
| `free_thermal_expansion` | 1, 2, 5 |
| `heat_is_balanced` | 1, 2, 5 |
| `surface_heat_flux` | 1, 2, 4, 5 |
| `simp_interpolates` | 1, 2, 4, 5 |
| `multi_material_interpolates` | 1, 2, 4, 5 |
| `plane_stress_is_three_dimensional` | 1, 2, 4, 5 |
| `design_variables_are_placed` | none |
| `compliance_is_strain_energy` | 1, 2, 4, 5 |
| `more_material_less_compliance` | 1, 2, 4, 5 |
| `von_mises_reported` | 1, 2, 4, 5 |
| `von_mises_outcomes` | 1, 2, 4, 5 |
| `plate_von_mises_refuted` | 1, 2, 4, 5 |
| `cell_average_between` | 1, 5 |
| `energy_is_split` | 1, 5 |
| `stiffness_degradation` | 1, 5 |
| `fracture_is_irreversible` | 1, 5 |
| `local_damage_law` | 1, 5 |
| `damage_problem_unique` | 1, 2, 5 |
| `tensor_function_well_defined` | 1, 5 |
| `tensor_function_polynomial` | 1, 5 |
| `tensor_function_derivative` | 1, 4, 5 |
| `tensor_function_derivative_coaxial` | 1, 5 |

## ActProps

| theorem | axioms |
|---|---|
| `active_mesh_coherent` | none |
| `exterior_faces_found` | none |
| `exterior_faces_after_updates` | none |
| `exterior_faces_update_goes_on` | none |
| `deactivation_refuted` | none |
| `wall_grows` | 1, 5 |
| `wall_step_solves_active_part` | 1, 5 |
| `wall_step_succeeds` | 1, 5 |
| `thin_wall_heat` | 1, 2, 5 |
| `bare_plate_heat` | 1, 2, 5 |
| `bare_plate_pairing_refuted` | 1, 2, 5 |
| `thin_wall_cooling_refuted` | 1, 5 |

## SjacProps

| theorem | axioms |
|---|---|
| `proper_colouring_rows_suffice` | 1, 5 |
| `proper_colouring_cols_suffice` | 1, 5 |
| `greedy_colouring_proper` | none |
| `sparse_jacrev_exact` | 1, 5 |
| `sparse_jacfwd_exact` | 1, 5 |
| `sparse_jac_shapes` | 1, 5 |
| `sparse_jac_empty` | 1, 5 |
| `pattern_values_unused_refuted` | 1, 5 |
| `repeated_positions_refuted` | 1, 5 |
| `data_frame_times_partial` | 1, 5 |
| `data_frame_time_counts_fields` | 1 |
| `data_frame_times_refuted` | 1, 5 |
| `data_frame_too_little` | 1 |

## CrysProps

| theorem | axioms |
|---|---|
| `orientation_matrix` | 1, 5 |
| `orientation_axis_angle` | 1, 5 |
| `lattice_elasticity` | 1, 5 |
| `lattice_stress` | 1, 5 |
| `slip_dissipates` | 1, 2, 4, 5 |
| `slip_power_law` | 1, 2, 4, 5 |
| `slip_keeps_volume` | 1, 2, 4, 5 |
| `single_slip_history_keeps_volume` | 1, 2, 4, 5 |
| `joint_slip_keeps_volume_refuted` | 1, 2, 4, 5 |
| `hardening_matrix` | 1 |
| `hardening_monotone` | 1, 2, 4, 5 |
| `hardening_isotropic` | 1, 2, 4, 5 |
| `hardening_saturates_partial` | 1, 2, 4, 5 |
| `hardening_saturates_refuted` | 1, 2, 4, 5 |
| `local_solve_tolerance` | 1, 2, 4, 5 |
| `damped_newton_step` | 1, 2, 5 |
| `elastic_predictor` | 1, 2, 4, 5 |
| `crystal_stress_form` | 1, 2, 4, 5 |
| `crystal_frame_indifference` | 1, 2, 4, 5 |
| `crystal_unstrained` | 1, 2, 4, 5 |
| `local_residual_differentiable` | 1, 2, 4, 5 |
| `local_tangent_exact` | 1, 2, 4, 5 |
| `local_jacobian_at_rest` | 1, 2, 4, 5 |
| `deformed_moments_balance` | 1, 2, 5 |
| `crystal_moments_balance` | 1, 2, 4, 5 |
| `hyperelastic_moments_balance` | 1, 2, 4, 5 |
| `crystal_state_and_residual_agree` | 1, 2, 4, 5 |
| `second_simulation` | none |
| `one_step_simulation_repeats` | none |
| `repeated_simulation_refuted` | 1, 2, 4, 5 |

## RveProps

| theorem | axioms |
|---|---|
| `rve_pairs_opposite_sides` | 1, 2, 5 |
| `rve_constraints_exact` | 1, 2, 5 |
| `rve_mean_deformation` | 1, 2, 5 |
| `rve_displacement_jumps` | 1, 5 |
| `multipliers_do_no_work` | 1, 5 |
| `rve_solution_is_stationary` | 1, 2, 4, 5 |
| `rve_mean_stress` | 1, 2, 4, 5 |
| `rve_uniform_material` | 1, 2, 4, 5 |
| `rve_energy_frame_indifferent` | 1, 2, 4, 5 |
| `rve_energy_sign` | 1, 2, 4, 5 |
| `inclusion_is_union_of_cubes` | 1, 5 |
| `sample_is_tiled_by_the_cell` | 1, 5 |
| `traction_uses_face_moduli_partial` | 1, 5 |
| `traction_uses_face_moduli_refuted` | 1, 5 |
| `six_components_round_trip` | 1 |
| `surrogate_frame_indifferent` | 1, 5 |
| `surrogate_exerts_no_moment` | 1, 2, 5 |
| `surrogate_reproduces_cell_energy` | 1, 2, 5 |
| `retry_rescues_a_sample_refuted` | 1, 5 |
| `collection_ends_refuted` | 1, 5 |
| `collection_complete_partial` | 1, 5 |
| `data_are_partitioned` | none |
| `scaled_training_values` | 1, 5 |
| `percent_error_meaning_partial` | 1, 5 |
| `percent_error_finite_refuted` | 1, 5 |
| `polynomial_ansatz_at_rest_refuted` | 1, 2, 4, 5 |
| `tensile_curve` | 1, 5 |
| `rve_hooke` | 1, 2, 4, 5 |

## BoxProps

| theorem | axioms |
|---|---|
| `box_side_selected` | 1, 2, 5 |
| `isclose_finds_side` | 1, 5 |
| `box_divergence_theorem` | 1, 2, 5 |
| `traction_patch_test` | 1, 2, 5 |
| `uniform_sample_force` | 1, 2, 4, 5 |
| `uniform_sample_slope` | 1, 2, 4, 5 |
| `tensile_energy_slope` | 1, 2, 4, 5 |

## FormProps

| theorem | axioms |
|---|---|
| `forming_step` | 1, 2, 5 |
| `forming_histories` | 1, 2, 5 |
| `elastic_paths` | 1, 2, 5 |
| `forming_frame` | 1, 2, 5 |
| `volume_steps_refuted` | 1, 2, 5 |
| `volume_steps_harden` | 1, 2, 4, 5 |
| `elastic_energy_refuted` | 1, 2, 4, 5 |
| `forming_runs` | 1, 2, 5 |
| `forming_moments` | 1, 2, 5 |
| `forming_rigid_motion` | 1, 2, 5 |
| `single_not_unique` | 1, 2, 5 |
| `top_displacement` | 1, 5 |
| `top_meets_walls_refuted` | 1, 5 |
| `punch_traction` | 1, 2, 4, 5 |
| `load_programme` | 1, 5 |

## TopProps

| theorem | axioms |
|---|---|
| `stress_constraint_tracks` | 1, 2, 4, 5 |
| `constraint_gradients_partial` | 1, 2, 4, 5 |
| `constraint_gradients_refuted` | 1, 2, 3, 4, 5 |
| `allowed_stress_partial` | 1, 2, 4, 5 |
| `allowed_stress_refuted` | 1, 2, 3, 4, 5 |
| `material_constraints` | 1, 5 |
| `vibration_forms` | 1, 2, 4, 5 |
| `vibration_matrices` | 1, 2, 4, 5 |
| `eigenvalue_derivative` | 1, 2, 4, 5 |
| `frequency_constraint` | 1, 2, 4, 5 |
| `frequency_gradient` | 1, 2, 4, 5 |
| `kept_modes_partial` | 1, 5 |
| `too_few_pairs` | 1, 2, 4, 5 |
| `kept_modes_refuted` | 1, 5 |
| `plastic_load_sequence` | 1, 2, 4, 5 |
| `inspect_previous_partial` | 1, 2, 4, 5 |
| `inspect_final_refuted` | 1, 2, 4, 5 |
| `backprop_ignores_traction` | 1, 2, 5 |

## WellProps

| theorem | axioms |
|---|---|
| `poisson_solvable_iff` | 1, 2, 4, 5 |
| `poisson_solved` | 1, 2, 4, 5 |
| `elasticity_solved` | 1, 2, 4, 5 |
| `elasticity_floating` | 1, 2, 4, 5 |
| `poisson_minimum` | 1, 2, 4, 5 |
| `elasticity_minimum` | 1, 2, 4, 5 |
| `reverse_matrix_invertible` | 1, 2, 4, 5 |

## InfProps

| theorem | axioms |
|---|---|
| `infer_forward_linear` | 1, 2, 4, 5 |
| `infer_gradient_exact` | 1, 2, 4, 5 |
| `infer_stationary_iff_minimum` | 1, 2, 4, 5 |
| `infer_taylor_test` | 1, 2, 4, 5 |
| `infer_source_not_unique` | 1, 2, 4, 5 |
| `infer_affine_source_fits` | 1, 2, 4, 5 |
| `L2_is_a_norm` | 1, 2, 5 |
| `wrapper_right_in_step` | none |
| `wrapper_derivative_refuted` | none |

## InvProps

| theorem | axioms |
|---|---|
| `inverse_scaling` | 1, 2, 4, 5 |
| `inverse_translation` | 1, 2, 4, 5 |
| `inverse_gradient_identities` | 1, 2, 4, 5 |
| `inverse_displacement_gradient` | 1, 2, 4, 5 |
| `inverse_rest_regular` | 1, 2, 4, 5 |
| `inverse_reactions` | 1, 2, 4, 5 |

## RlxProps

| theorem | axioms |
|---|---|
| `relaxation_result` | 1, 2, 5 |
| `relaxation_loose_tolerance_refuted` | 1, 2, 5 |
| `relaxation_stable` | 1, 2, 5 |
| `relaxation_terminates` | 1, 2, 4, 5 |
| `relaxation_converges_refuted` | 1, 2, 5 |
| `solver_relaxation_refuted` | 1, 5 |

## ManProps

| theorem | axioms |
|---|---|
| `manufactured_residual` | 1, 2, 4, 5 |
| `manufactured_solved` | 1, 2, 4, 5 |
| `manufactured_errors` | 1, 2, 5 |
| `convergence_order` | 1, 2, 5 |

## MaxProps

| theorem | axioms |
|---|---|
| `poisson_maximum` | 1, 2, 4, 5 |
| `stretched_cells_refuted` | 1, 2, 4, 5 |

## HeatProps

| theorem | axioms |
|---|---|
| `tolerance_picks_side` | 1, 2, 5 |
| `thick_top_refuted` | 1, 2, 5 |
| `thin_top_heat` | 1, 2, 5 |
| `thermal_step_solved` | 1, 2, 4, 5 |
| `damage_step_solved` | 1, 2, 4, 5 |
| `heating_cools_refuted` | 1, 2, 4, 5 |
| `insulated_steps_contract` | 1, 2, 4, 5 |

## ConnProps

| theorem | axioms |
|---|---|
| `poisson_mesh_solvable` | 1, 2, 4, 5 |
| `poisson_mesh_solved` | 1, 2, 4, 5 |
| `thermal_mesh_step` | 1, 2, 4, 5 |
| `damage_mesh_step` | 1, 2, 4, 5 |
| `insulated_mesh_contract` | 1, 2, 4, 5 |
| `elastic_mesh_braced` | 1, 2, 4, 5 |
| `elastic_simplex_solved` | 1, 2, 4, 5 |
| `secured_tetrahedra` | 1, 2, 4, 5 |

## SaddleProps

| theorem | axioms |
|---|---|
| `periodic_poisson_regular` | 1, 2, 4, 5 |
| `independent_constraints_cases` | 1, 4, 5 |
| `independent_constraints_reach` | 1, 4, 5 |
| `multipliers_exist` | 1, 4, 5 |
| `periodic_linear_solved` | 1, 2, 4, 5 |
| `periodic_poisson_solved` | 1, 2, 4, 5 |
| `periodic_demo_regular_refuted` | 1, 2, 4, 5 |
| `periodic_cell_regular_refuted` | 1, 2, 4, 5 |
| `periodic_demo_run_refuted` | 1, 2, 5 |
| `periodic_demo_solution` | 1, 2, 4, 5 |

## ProjProps

| theorem | axioms |
|---|---|
| `correction_leaves` | 1, 5 |
| `correction_free_iff` | 1, 5 |
| `correction_free_refuted` | 1, 5 |
| `correction_energy` | 1, 5 |
| `pressure_well_posed` | 1, 4, 5 |
| `pressure_solve_exact` | 1, 4, 5 |
| `prediction_well_posed` | 1, 4, 5 |
| `prediction_energy` | 1, 5 |
| `prediction_solid` | 1, 5 |
| `velocity_update_energy` | 1, 4, 5 |
| `solid_at_rest_refuted` | 1, 3, 4, 5 |

## RobProps

| theorem | axioms |
|---|---|
| `growing_flux_unique` | 1, 2, 4, 5 |
| `growing_flux_level` | 1, 2, 4, 5 |
| `exchange_solvable` | 1, 2, 4, 5 |
| `exchange_solved` | 1, 2, 4, 5 |
| `cauchy_example_unique_refuted` | 1, 2, 5 |
| `cauchy_example_nonnegative` | 1, 2, 4, 5 |

## CylProps

| theorem | axioms |
|---|---|
| `cylinder_mass` | 1, 5 |
| `cylinder_start_mass` | 1, 2, 5 |
| `cylinder_momentum` | 1, 5 |
| `free_flow_momentum` | 1, 5 |
| `cylinder_returns` | 1, 5 |
| `cylinder_rest` | 1, 5 |
| `cylinder_symmetric` | 1, 5 |
| `cylinder_symmetric_start` | 1, 2, 5 |
| `cylinder_nonnegative_refuted` | 1, 2, 5 |
| `cylinder_nonnegative_slow` | 1, 5 |

## NumProps

| theorem | axioms |
|---|---|
| `numba_triplets` | 1, 2, 5 |
| `numba_triplet_count` | 1, 5 |
| `numba_residual_agrees` | 1, 2, 5 |
| `numba_energy` | 1, 5 |
| `numba_symmetric` | 1, 5 |
| `numba_nonnegative` | 1, 5 |
| `numba_translations` | 1, 5 |

## MarProps

| theorem | axioms |
|---|---|
| `melt_pool_walls` | 1, 5 |
| `thermocapillary_balance` | 1, 5 |
| `velocity_bc_forms_agree` | 1, 5 |
| `surface_force` | 1, 5 |
| `surface_shear_direction` | 1, 5 |
| `uniform_gradient_inner` | 1, 5 |
| `uniform_gradient_rim` | 1, 5 |
| `uniform_gradient_refuted` | 1, 5 |

## CurProps

| theorem | axioms |
|---|---|
| `beam_hooke` | 1, 5 |
| `beam_work_monotone` | 1, 5 |
| `beam_energy_monotone` | 1, 2, 4, 5 |
| `beam_energy_range` | 1, 2, 4, 5 |
| `uniform_density_same` | 1, 2, 5 |
| `proportional_density_same` | 1, 2, 5 |
| `set_params_cells` | 1 |
| `beam_vars` | 1 |
| `volume_constraint_inactive` | 1, 5 |
| `beam_error_zero` | 1, 2, 5 |

## StyProps

| theorem | axioms |
|---|---|
| `gram_form` | 1, 5 |
| `gram_semidefinite` | 1, 5 |
| `gram_blind_to_mirrors` | 1, 5 |
| `gram_one_image` | 1, 5 |
| `vgg_layers_kept` | 1, 5 |
| `loss_layers_transparent` | 1, 5 |
| `style_losses` | 1, 5 |
| `content_losses` | 1, 5 |
| `loss_nonneg` | 1, 5 |
| `loss_zero_at_target` | 1, 5 |
| `losses_add_up` | 1, 5 |
| `report_needs_both_kinds` | 1 |
| `report_total_refuted` | 1 |
| `pixels_binary` | 1, 5 |
