{
 "claims": [
  {
   "property": "C01",
   "status": "proved",
   "theorems": [
    "C01_basis_of_offset_surface",
    "C01_metric_is_gram",
    "C01_metric_det_curvature"
   ],
   "note": "Determinant, Gram and derivative forms: the basis at height z is the derivative of the offset surface x + z n along the coordinate (Weingarten relation proved)."
  },
  {
   "property": "C02",
   "status": "proved",
   "theorems": [
    "C02_bases_dual",
    "C02_midsurface_dual"
   ],
   "note": ""
  },
  {
   "property": "C03",
   "status": "proved",
   "theorems": [
    "C03_objectivity",
    "C03_rigid_motion_strain_free"
   ],
   "note": ""
  },
  {
   "property": "C04",
   "status": "proved",
   "theorems": [
    "C04_J0_is_area_ratio",
    "C04_caustic"
   ],
   "note": ""
  },
  {
   "property": "C05",
   "status": "proved",
   "theorems": [
    "C05_linear_symmetries",
    "C05_stress_is_matrix_times_strain",
    "C05_guard"
   ],
   "note": ""
  },
  {
   "property": "C06",
   "status": "proved",
   "theorems": [
    "C06_plane_stress",
    "C06_engineering_constant",
    "C06_uniaxial"
   ],
   "note": ""
  },
  {
   "property": "C07",
   "status": "proved",
   "theorems": [
    "C07_linear_positive_definite",
    "C07_bounds_sharp"
   ],
   "note": ""
  },
  {
   "property": "C08",
   "status": "proved",
   "theorems": [
    "C08_membrane_force",
    "C08_moment",
    "C08_stiffness",
    "C08_resultants_from_stiffness",
    "C08_strain_expansion"
   ],
   "note": ""
  },
  {
   "property": "C09",
   "status": "proved",
   "theorems": [
    "C09_constant_integrand",
    "C09_affine_integrand"
   ],
   "note": ""
  },
  {
   "property": "C10",
   "status": "proved",
   "theorems": [
    "C10_quadrature_exact",
    "C10_strategies_agree",
    "C10_default_rule",
    "C10_output_moments",
    "C10_output_moments_linear",
    "C10_kind_selected",
    "C10_failure"
   ],
   "note": ""
  },
  {
   "property": "C11",
   "status": "proved",
   "theorems": [
    "C11_column_bijection",
    "C11_batch_is_pointwise"
   ],
   "note": ""
  },
  {
   "property": "C12",
   "status": "proved",
   "theorems": [
    "C12_last_metric",
    "C12_uniform_metric",
    "C12_stretch_pointwise",
    "C12_principal_batch_refuted"
   ],
   "note": ""
  },
  {
   "property": "C13",
   "status": "proved",
   "theorems": [
    "C13_in_range",
    "C13_out_of_range_refuted"
   ],
   "note": ""
  },
  {
   "property": "C14",
   "status": "proved",
   "theorems": [
    "C14_taut_iff",
    "C14_slack_sound",
    "C14_slack_complete",
    "C14_monotone",
    "C14_scale_invariant",
    "C14_criteria_consistent",
    "C14_option_guard"
   ],
   "note": ""
  },
  {
   "property": "C15",
   "status": "proved",
   "theorems": [
    "C15_stretch_correct",
    "C15_shortcut_wrong",
    "C15_principal_stretches_refuted"
   ],
   "note": ""
  },
  {
   "property": "C16",
   "status": "proved",
   "theorems": [
    "C16_laminate_moments",
    "C16_not_integrated_twice"
   ],
   "note": ""
  },
  {
   "property": "C17",
   "status": "proved",
   "theorems": [
    "C17_reversal",
    "C17_symmetric_uncoupled"
   ],
   "note": ""
  },
  {
   "property": "C18",
   "status": "proved",
   "theorems": [
    "C18_rotated_energy",
    "C18_group_action",
    "C18_symmetry_definiteness",
    "C18_isotropic",
    "C18_invariants"
   ],
   "note": ""
  },
  {
   "property": "C19",
   "status": "proved",
   "theorems": [
    "C19_resultants_omit_coupling",
    "C19_other_outputs",
    "C19_symmetric_layup",
    "C19_unsymmetric_refuted"
   ],
   "note": ""
  },
  {
   "property": "C20",
   "status": "proved",
   "theorems": [
    "C20_orthotropic",
    "C20_orthotropic_posdef",
    "C20_raw_positions"
   ],
   "note": ""
  },
  {
   "property": "C21",
   "status": "proved",
   "theorems": [
    "C21_incompressible",
    "C21_incompressible_generalized",
    "C21_compressible",
    "C21_output",
    "C21_output_components",
    "C21_ogden"
   ],
   "note": ""
  },
  {
   "property": "C22",
   "status": "proved",
   "theorems": [
    "C22_incompressible",
    "C22_compressible"
   ],
   "note": ""
  },
  {
   "property": "C23",
   "status": "proved",
   "theorems": [
    "C23_incompressible",
    "C23_compressible"
   ],
   "note": ""
  },
  {
   "property": "C24",
   "status": "proved",
   "theorems": [
    "C24_incompressible",
    "C24_incompressible_tangent",
    "C24_compressible",
    "C24_compressible_tangent",
    "C24_thickness_component",
    "C24_all_states_refuted"
   ],
   "note": "Holds away from the trace shortcut of _evalStretch; the refuted theorem gives a state where the shortcut yields a stress of the wrong sign."
  },
  {
   "property": "C25",
   "status": "proved",
   "theorems": [
    "C25_tangent"
   ],
   "note": ""
  },
  {
   "property": "C26",
   "status": "proved",
   "theorems": [
    "C26_tangent3D"
   ],
   "note": ""
  },
  {
   "property": "C27",
   "status": "proved",
   "theorems": [
    "C27_all_laws",
    "C27_condensation",
    "C27_nhe_root",
    "C27_nhe_tangent"
   ],
   "note": ""
  },
  {
   "property": "C28",
   "status": "proved",
   "theorems": [
    "C28_symmetries",
    "C28_voigt_matrix"
   ],
   "note": ""
  },
  {
   "property": "C29",
   "status": "proved",
   "theorems": [
    "C29_returned",
    "C29_thrown",
    "C29_small_residual_refuted"
   ],
   "note": ""
  },
  {
   "property": "C30",
   "status": "proved",
   "theorems": [
    "C30_converges",
    "C30_diverges",
    "C30_throws",
    "C30_accurate"
   ],
   "note": ""
  },
  {
   "property": "C31",
   "status": "proved",
   "theorems": [
    "C31_dmatrix"
   ],
   "note": ""
  },
  {
   "property": "C32",
   "status": "proved",
   "theorems": [
    "C32_no_normal_stress",
    "C32_uniaxial_iff_root",
    "C32_wrinkling_strain",
    "C32_gamma_unique"
   ],
   "note": "both directions: uniaxial iff root; gamma unique"
  },
  {
   "property": "C33",
   "status": "proved",
   "theorems": [
    "C33_theta_derivative",
    "C33_exact_at_root",
    "C33_off_root_refuted"
   ],
   "note": "exact at roots, explicit defect elsewhere; deriv_into2 refuted off roots"
  },
  {
   "property": "C34",
   "status": "proved",
   "theorems": [
    "C34_tangent_up_to_coupling",
    "C34_exact_iff_no_coupling",
    "C34_orthonormal_isotropic",
    "C34_tangent_refuted"
   ],
   "note": "true tangent = returned minus explicit coupling term; vanishes iff n2.C.n1=0 or gamma=0; holds for isotropic/orthonormal; refuted in a skewed parametrisation. Existence of the differentiable angle branch is a hypothesis."
  },
  {
   "property": "C35",
   "status": "proved",
   "theorems": [
    "C35_stress_columns",
    "C35_strain_columns",
    "C35_matrix_columns",
    "C35_general_matrix_columns",
    "C35_principal_columns",
    "C35_slack_is_zero",
    "C35_total",
    "C35_unknown_rejected",
    "C35_first_failure"
   ],
   "note": "stress, strain, linear matrix columns; inner material values are arguments"
  },
  {
   "property": "C36",
   "status": "proved",
   "theorems": [
    "C36_increasing_bracket",
    "C36_decreasing_bracket",
    "C36_any_bracket",
    "C36_wrinkling_angle",
    "C36_decreasing_refuted"
   ],
   "note": "increasing bracket sound; decreasing bracket characterised (ends of the interval) and refuted"
  },
  {
   "property": "C37",
   "status": "proved",
   "theorems": [
    "C37_fixed_point",
    "C37_budget_irrelevant",
    "C37_success_iff",
    "C37_never_converges",
    "C37_success_refuted"
   ],
   "note": "closed form of the result; false success refuted"
  },
  {
   "property": "C38",
   "status": "proved",
   "theorems": [
    "C38_restores",
    "C38_outcome",
    "C38_throw_keeps_frozen",
    "C38_after_throw_refuted"
   ],
   "note": "all call sequences; exception case refuted"
  },
  {
   "property": "C39",
   "status": "proved",
   "theorems": [
    "C39_rhs_is_last_assembly",
    "C39_stale_characterisation",
    "C39_clearing_point_loads_refuted",
    "C39_old_discretisation_refuted",
    "C39_pressure_vector_invisible",
    "C39_pressure_vector_added",
    "C39_matrix_resets_vector"
   ],
   "note": "refinement: every admissible call history ends with the expected vector; the admissibility condition excludes the refuted cases, which have their own theorems. Numbers produced by the integration loops are arguments."
  },
  {
   "property": "C40",
   "status": "proved",
   "theorems": [
    "C40_registered_loads",
    "C40_pressure_dropped_refuted",
    "C40_late_option_refuted",
    "C40_late_option_wrong_size_refuted"
   ],
   "note": "exact effect of each call on registered loads; dropping refuted as user expectation"
  },
  {
   "property": "C41",
   "status": "proved",
   "theorems": [
    "C41_status_of_assemblies",
    "C41_mass_status",
    "C41_mass_status_refuted"
   ],
   "note": "mass assembly status refuted"
  },
  {
   "property": "C42",
   "status": "proved",
   "theorems": [
    "C42_nonlinear_history_free",
    "C42_linear_uses_current_mode",
    "C42_linear_history_refuted",
    "C42_const_method_changes_next_assembly",
    "C42_prescribed_values_current"
   ],
   "note": "linear assemble() refuted"
  },
  {
   "property": "C43",
   "status": "proved",
   "theorems": [
    "C43_default_assignment",
    "C43_other_defaults",
    "C43_idempotent",
    "C43_add_refuted",
    "C43_user_lists"
   ],
   "note": "accumulating add* refuted"
  },
  {
   "property": "C44",
   "status": "proved",
   "theorems": [
    "C44_round_trip",
    "C44_field_recovered",
    "C44_constructed_field",
    "C44_missing_patch_indeterminate",
    "C44_mapped_coefficients",
    "C44_mapped_construction",
    "C44_mapped_round_trip_refuted",
    "C44_uncoupled_field_refuted",
    "C44_update_ignores_geometry",
    "C44_update_refuted"
   ],
   "note": "mapped-basis round trip, uncoupled field and updateMultiPatch geometry refuted"
  },
  {
   "property": "C45",
   "status": "proved",
   "theorems": [
    "C45_sum_over_set",
    "C45_sides_as_a_set",
    "C45_disjoint_sides_add",
    "C45_global_equilibrium"
   ],
   "note": "includes global equilibrium"
  },
  {
   "property": "C46",
   "status": "proved",
   "theorems": [
    "C46_virtual_work",
    "C46_only_active_entries",
    "C46_total_load",
    "C46_order_irrelevant",
    "C46_superposition",
    "C46_load_on_fixed_function_lost"
   ],
   "note": ""
  },
  {
   "property": "C47",
   "status": "proved",
   "theorems": [
    "C47_unit_normal",
    "C47_first_variation",
    "C47_first_variation_path",
    "C47_variation_is_tangential"
   ],
   "note": "proved along straight lines and along every differentiable family of configurations"
  },
  {
   "property": "C48",
   "status": "proved",
   "theorems": [
    "C48_second_variation",
    "C48_symmetric",
    "C48_contracted"
   ],
   "note": "space version (var2dot_expr / var2deriv2dot_expr)"
  },
  {
   "property": "C49",
   "status": "proved",
   "theorems": [
    "C49_field_version",
    "C49_correct_iff",
    "C49_symmetry_refuted",
    "C49_derivative_refuted"
   ],
   "note": "exact defect of the field version; symmetry and derivative property refuted"
  },
  {
   "property": "C50",
   "status": "proved",
   "theorems": [
    "C50_membrane_strain_variation",
    "C50_bending_strain_variation",
    "C50_stiffness_is_jacobian",
    "C50_force_is_energy_gradient",
    "C50_membrane_stiffness",
    "C50_quadrature_resultants",
    "C50_linear_material"
   ],
   "note": "density, assembled matrix, energy gradient, membrane version, quadrature resultants, end-to-end for the linear material. Hyperelastic resultants also depend on the third fundamental form, so has_tangents is a hypothesis here; their stiffness is C124."
  },
  {
   "property": "C51",
   "status": "proved",
   "theorems": [
    "C51_density_symmetric",
    "C51_matrix_symmetric"
   ],
   "note": ""
  },
  {
   "property": "C52",
   "status": "proved",
   "theorems": [
    "C52_pressure"
   ],
   "note": ""
  },
  {
   "property": "C53",
   "status": "proved",
   "theorems": [
    "C53_foundation_derivative",
    "C53_consistency_refuted",
    "C53_force_is_not_restoring"
   ],
   "note": "derivative computed exactly; consistency refuted at every configuration for every non-zero stiffness"
  },
  {
   "property": "C54",
   "status": "proved",
   "theorems": [
    "C54_interface_3d",
    "C54_interface_psd",
    "C54_interface_2d_sign_refuted",
    "C54_interface_2d_linear_refuted",
    "C54_weak_dirichlet",
    "C54_weak_dirichlet_value_3d",
    "C54_weak_dirichlet_value_2d",
    "C54_weak_dirichlet_indefinite_refuted",
    "C54_rotation_out_of_plane"
   ],
   "note": "penalty factor held fixed; element area and material scaling of the penalty are arguments"
  },
  {
   "property": "C55",
   "status": "proved",
   "theorems": [
    "C55_roundtrip",
    "C55_injective",
    "C55_eleventh_material_refuted"
   ],
   "note": "The eleventh material (of 4 x 3 - 1 offered combinations) encodes to a number that decodes differently: C55_eleventh_material_refuted."
  },
  {
   "property": "C56",
   "status": "proved",
   "theorems": [
    "C56_builds_exactly_what_is_offered",
    "C56_identifier_decodes",
    "C56_throws_iff",
    "C56_null_iff",
    "C56_defaults",
    "C56_unknown_numbers_refuted",
    "C56_linear_ignores_switches"
   ],
   "note": "Factory modelled as a decision function over options; unknown numbers and ignored switches are recorded as refuted/characterised statements."
  },
  {
   "property": "C57",
   "status": "proved",
   "theorems": [
    "C57_roundtrip",
    "C57_roundtrip_tension_field",
    "C57_written_iff",
    "C57_unknown_class",
    "C57_parameters_by_index",
    "C57_factory_products",
    "C57_factory_product_lost_refuted",
    "C57_wrapper_members_lost_refuted",
    "C57_read_outcomes"
   ],
   "note": "XML tree modelled as an association list; number formatting of the I/O layer is not modelled (values are stored exactly)."
  },
  {
   "property": "C58",
   "status": "proved",
   "theorems": [
    "C58_read",
    "C58_out_of_range",
    "C58_piece_iff",
    "C58_add",
    "C58_set",
    "C58_history",
    "C58_null_pieces_refuted"
   ],
   "note": "Vector of possibly null pointers; null pieces are returned without complaint (C58_null_pieces_refuted)."
  },
  {
   "property": "C59",
   "status": "proved",
   "theorems": [
    "C59_shares",
    "C59_schedule_independent",
    "C59_element_in_no_box",
    "C59_sum",
    "C59_single_patch",
    "C59_outside",
    "C59_schedule_exists",
    "C59_equal_shares_refuted"
   ],
   "note": ""
  },
  {
   "property": "C60",
   "status": "proved",
   "theorems": [
    "C60_normalised",
    "C60_squared",
    "C60_raw",
    "C60_zero_total",
    "C60_sum_one_refuted"
   ],
   "note": ""
  },
  {
   "property": "C61",
   "status": "proved",
   "theorems": [
    "C61_strain_quantities",
    "C61_strain_dual",
    "C61_stress_dual",
    "C61_principal_dual",
    "C61_boundary_flexural_norm_refuted",
    "C61_stretch_component_refuted",
    "C61_stretch_scaled_refuted",
    "C61_flexural_stress_hyperelastic_refuted",
    "C61_point_stretch_refuted",
    "C61_point_stretch_is_displacement",
    "C61_components",
    "C61_unanswered"
   ],
   "note": ""
  },
  {
   "property": "C62",
   "status": "proved",
   "theorems": [
    "C62_modal_forms",
    "C62_modal_coincide",
    "C62_modal_exact",
    "C62_buckling_forms_straight",
    "C62_buckling_coincide_straight",
    "C62_buckling_coincide_refuted",
    "C62_buckling_second_derivatives_refuted"
   ],
   "note": ""
  },
  {
   "property": "C63",
   "status": "proved",
   "theorems": [
    "C63_sum",
    "C63_defined_iff",
    "C63_undefined",
    "C63_order",
    "C63_derivative",
    "C63_all_derivatives",
    "C63_support",
    "C63_support_refuted",
    "C63_copy_alive",
    "C63_destroyed_undefined",
    "C63_copy_refuted"
   ],
   "note": "support and copy claims hold only in the weaker form; the stronger ones are refuted"
  },
  {
   "property": "C64",
   "status": "proved",
   "theorems": [
    "C64_local",
    "C64_renumber",
    "C64_stretch_directions",
    "C64_principal_stress_refuted",
    "C64_principal_stress_dir_refuted",
    "C64_principal_stress_dir_undefined"
   ],
   "note": "two output types violate it: refuted with witnesses"
  },
  {
   "property": "C65",
   "status": "proved",
   "theorems": [
    "C65_set_get",
    "C65_names_distinct",
    "C65_ogden_any_order",
    "C65_mooney_any_order",
    "C65_mooney_wrong_count",
    "C65_terms_of_the_stress",
    "C65_incomplete_refuted",
    "C65_wrong_name",
    "C65_get_outcomes"
   ],
   "note": "Named parameter setters of the hyperelastic laws and their use in the stress (Ogden, Mooney-Rivlin)."
  },
  {
   "property": "C66",
   "status": "proved",
   "theorems": [
    "C66_integrating_evaluators",
    "C66_pointwise_evaluators",
    "C66_strain_reported_zero",
    "C66_refuted",
    "C66_wrapper_copies_undeformed_iff",
    "C66_wrapper_refuted"
   ],
   "note": "Statement as written is false for the pointwise evaluators (C66_refuted) and for the tension-field wrapper (C66_wrapper_refuted); the theorems give the exact behaviour."
  },
  {
   "property": "C67",
   "status": "proved",
   "theorems": [
    "C67_surface_parametrisation_independent",
    "C67_planar_refuted",
    "C67_planar_scaling",
    "C67_planar_orthonormal_correct"
   ],
   "note": "Proved for surfaces in 3D; for planar elements the property is false in the code (covariant metric stored as contravariant), see the refuted theorem and the scaling law."
  },
  {
   "property": "C68",
   "status": "proved",
   "theorems": [
    "C68_tft_moment_vanishes",
    "C68_tft_membrane_force",
    "C68_tft_bending_stiffness",
    "C68_tft_consistency_refuted"
   ],
   "note": ""
  },
  {
   "property": "C69",
   "status": "proved",
   "theorems": [
    "C69_principal_bending_stress_zero",
    "C69_disagrees_with_moment"
   ],
   "note": ""
  },
  {
   "property": "C70",
   "status": "proved",
   "theorems": [
    "C70_transformation",
    "C70_transformation_inverse",
    "C70_documented_direction_refuted"
   ],
   "note": ""
  },
  {
   "property": "C71",
   "status": "proved",
   "theorems": [
    "C71_stress_values",
    "C71_stress_invariants",
    "C71_strain_invariants",
    "C71_principal_values",
    "C71_trace"
   ],
   "note": ""
  },
  {
   "property": "C72",
   "status": "proved",
   "theorems": [
    "C72_orthogonal_energy",
    "C72_cart2cov_iff",
    "C72_skew_refuted"
   ],
   "note": ""
  },
  {
   "property": "C73",
   "status": "proved",
   "theorems": [
    "C73_abd_positive_definite"
   ],
   "note": ""
  },
  {
   "property": "C74",
   "status": "proved",
   "theorems": [
    "C74_density",
    "C74_no_density_refuted"
   ],
   "note": ""
  },
  {
   "property": "C75",
   "status": "proved",
   "theorems": [
    "C75_compressible_energy",
    "C75_incompressible_energy",
    "C75_volume_ratio"
   ],
   "note": ""
  },
  {
   "property": "C76",
   "status": "proved",
   "theorems": [
    "C76_always_zero",
    "C76_cauchy_refuted"
   ],
   "note": ""
  },
  {
   "property": "C77",
   "status": "proved",
   "theorems": [
    "C77_compressible",
    "C77_incompressible"
   ],
   "note": ""
  },
  {
   "property": "C78",
   "status": "proved",
   "theorems": [
    "C78_exists",
    "C78_unique",
    "C78_regular"
   ],
   "note": ""
  },
  {
   "property": "C79",
   "status": "proved",
   "theorems": [
    "C79_coincident_incompressible",
    "C79_coincident_compressible",
    "C79_incompressible",
    "C79_compressible",
    "C79_pressure_derivative"
   ],
   "note": ""
  },
  {
   "property": "C80",
   "status": "proved",
   "theorems": [
    "C80_coincident_incompressible",
    "C80_coincident_compressible",
    "C80_incompressible",
    "C80_compressible",
    "C80_principal_components"
   ],
   "note": "States whose in-plane stretches are either equal or not closer than the relative tolerance 1e-14 of the code; unequal stretches within that tolerance are outside."
  },
  {
   "property": "C81",
   "status": "proved",
   "theorems": [
    "C81_incompressible",
    "C81_compressible",
    "C81_youngs_modulus_refuted"
   ],
   "note": "The stiffness is characterised exactly; that it matches E and nu is refuted."
  },
  {
   "property": "C82",
   "status": "proved",
   "theorems": [
    "C82_accepted_iff",
    "C82_unsheared",
    "C82_refuted"
   ],
   "note": "characterisation + both-way counterexample"
  },
  {
   "property": "C83",
   "status": "proved",
   "theorems": [
    "C83_tangent_is_transposed",
    "C83_tangent_refuted",
    "C83_column_tangent"
   ],
   "note": "returned tangent is the transpose; equality refuted"
  },
  {
   "property": "C84",
   "status": "proved",
   "theorems": [
    "C84_wrinkled_cauchy",
    "C84_refuted"
   ],
   "note": "characterisation + refuted"
  },
  {
   "property": "C85",
   "status": "proved",
   "theorems": [
    "C85_physical_wrinkled_state"
   ],
   "note": "linear inner material"
  },
  {
   "property": "C86",
   "status": "proved",
   "theorems": [
    "C86_accepted_or_zero",
    "C86_throws_only_on_budget",
    "C86_grid_candidates",
    "C86_grid_complete",
    "C86_period",
    "C86_zero_candidate"
   ],
   "note": "for any start interval (its computation is C128); gsFunction::newtonRaphson is an argument"
  },
  {
   "property": "C87",
   "status": "proved",
   "theorems": [
    "C87_tangent_column",
    "C87_tangent_variation",
    "C87_outer_normal_variation",
    "C87_second_variation_unit_columns",
    "C87_second_variation_refuted"
   ],
   "note": "second variation refuted for non-unit tangent columns"
  },
  {
   "property": "C88",
   "status": "proved",
   "theorems": [
    "C88_in_plane_coupling_at_reference",
    "C88_in_plane_coupling_refuted",
    "C88_weak_clamped_refuted",
    "C88_weak_clamped_vector_flat",
    "C88_weak_clamped_matrix"
   ],
   "note": "consistent at reference; both refuted elsewhere / for clamped"
  },
  {
   "property": "C89",
   "status": "proved",
   "theorems": [
    "C89_rigid_motion_strain_free",
    "C89_normal_rotates",
    "C89_internal_force_balance",
    "C89_linear_stiffness_null_space"
   ],
   "note": ""
  },
  {
   "property": "C90",
   "status": "proved",
   "theorems": [
    "C90_mass_symmetric_psd",
    "C90_total_mass"
   ],
   "note": ""
  },
  {
   "property": "C91",
   "status": "proved",
   "theorems": [
    "C91_mip_reduces_to_newton",
    "C91_predicted_resultants"
   ],
   "note": ""
  },
  {
   "property": "C92",
   "status": "proved",
   "theorems": [
    "C92_set_basis_container",
    "C92_set_basis_single_material",
    "C92_set_basis_refuted"
   ],
   "note": "single-material constructor refuted"
  },
  {
   "property": "C93",
   "status": "proved",
   "theorems": [
    "C93_point_mass_ignored",
    "C93_point_mass_refuted"
   ],
   "note": "true characterisation is that the setter is ignored; point mass in the mass matrix refuted"
  },
  {
   "property": "C94",
   "status": "proved",
   "theorems": [
    "C94_copy_of_single_material",
    "C94_copy_of_container",
    "C94_set_basis_on_copy",
    "C94_move_of_container",
    "C94_deep_copy_refuted",
    "C94_dangling_refuted",
    "C94_values_without_container"
   ],
   "note": "deep copy refuted for container-built assemblers"
  },
  {
   "property": "C95",
   "status": "proved",
   "theorems": [
    "C95_area_rigid",
    "C95_area_parametrisation",
    "C95_displacement_norm_zero",
    "C95_displacement_norm_rms",
    "C95_displacement_norm_translation",
    "C95_displacement_norm_growth",
    "C95_displacement_mean_refuted",
    "C95_deformation_norm_refuted"
   ],
   "note": ""
  },
  {
   "property": "C96",
   "status": "proved",
   "theorems": [
    "C96_own_geometry",
    "C96_last_constructed_wins",
    "C96_independent_refuted",
    "C96_construction_succeeds_iff",
    "C96_short_container_throws",
    "C96_null_material_undefined",
    "C96_single_material_multipatch"
   ],
   "note": "Exact criterion for when an evaluator uses its own geometry; independence is refuted."
  },
  {
   "property": "C97",
   "status": "proved",
   "theorems": [
    "C97_all_coefficients_at_previous",
    "C97_matrix_of_previous_material",
    "C97_separate_materials",
    "C97_refuted"
   ],
   "note": "All coefficients belong to the previous configuration; the matrix the code spells out is refuted by a witness."
  },
  {
   "property": "C98",
   "status": "proved",
   "theorems": [
    "C98_wrapper_setters_inert",
    "C98_raw_parameters_forwarded",
    "C98_parameter_count",
    "C98_named_setters_throw",
    "C98_getters_show_last",
    "C98_setters_take_effect_refuted"
   ],
   "note": "Setters of the tension-field wrapper do not reach the wrapped material (except raw parameters)."
  },
  {
   "property": "C99",
   "status": "proved",
   "theorems": [
    "C99_stress_components",
    "C99_frame_exists_unique",
    "C99_membrane_strain",
    "C99_conjugate",
    "C99_flexural_strain_tensor_iff",
    "C99_flexural_strain_engineering_iff",
    "C99_flexural_strain_tensor_refuted",
    "C99_flexural_strain_engineering_refuted"
   ],
   "note": "flexural strain: exact conditions and refutations of both readings"
  },
  {
   "property": "C100",
   "status": "proved",
   "theorems": [
    "C100_von_mises",
    "C100_parametrisation_independent",
    "C100_surface_refuted",
    "C100_surface_hyper"
   ],
   "note": "surface pair refuted for linear material, characterised for hyperelastic"
  },
  {
   "property": "C101",
   "status": "proved",
   "theorems": [
    "C101_linear_flexural",
    "C101_linear_cauchy",
    "C101_hyper_flexural",
    "C101_hyper_flexural_refuted",
    "C101_principal_flexural_strain",
    "C101_principal_membrane_strain",
    "C101_principal_flexural_strain_refuted"
   ],
   "note": "hyperelastic and principal flexural outputs refuted"
  },
  {
   "property": "C102",
   "status": "proved",
   "theorems": [
    "C102_residuals",
    "C102_dofs",
    "C102_galerkin",
    "C102_nested",
    "C102_equilibrium",
    "C102_equal_duals",
    "C102_membrane",
    "C102_other_loads",
    "C102_linear",
    "C102_pressure_refuted",
    "C102_without_loads_refuted"
   ],
   "note": ""
  },
  {
   "property": "C103",
   "status": "proved",
   "theorems": [
    "C103_sum",
    "C103_total",
    "C103_throws_never_on_matching_mesh",
    "C103_neumann_refuted"
   ],
   "note": ""
  },
  {
   "property": "C104",
   "status": "proved",
   "theorems": [
    "C104_dofs_unchanged",
    "C104_dofs_refuted"
   ],
   "note": ""
  },
  {
   "property": "C105",
   "status": "proved",
   "theorems": [
    "C105_modal",
    "C105_modal_sym",
    "C105_modal_psd",
    "C105_buckling_straight",
    "C105_buckling_sym",
    "C105_buckling_second_derivatives_refuted",
    "C105_buckling_loads_refuted",
    "C105_buckling_loads"
   ],
   "note": ""
  },
  {
   "property": "C106",
   "status": "proved",
   "theorems": [
    "C106_stretch_dual_basis",
    "C106_stretch_orthonormal",
    "C106_stretch_refuted",
    "C106_stress_components"
   ],
   "note": ""
  },
  {
   "property": "C107",
   "status": "proved",
   "theorems": [
    "C107_nonneg",
    "C107_elements",
    "C107_negative_refuted",
    "C107_bounds_error"
   ],
   "note": ""
  },
  {
   "property": "C108",
   "status": "proved",
   "theorems": [
    "C108_squared_lengths",
    "C108_through_thickness"
   ],
   "note": ""
  },
  {
   "property": "C109",
   "status": "proved",
   "theorems": [
    "C109_planar_undefined",
    "C109_translation_dependent",
    "C109_elastic_energy_refuted"
   ],
   "note": ""
  },
  {
   "property": "C110",
   "status": "proved",
   "theorems": [
    "C110_C0_error_zero",
    "C110_G1_error_zero",
    "C110_smooth_surface_no_error",
    "C110_opposite_orientation",
    "C110_normal_error_value",
    "C110_normal_error_refuted",
    "C110_in_plane_refuted",
    "C110_shape_operator"
   ],
   "note": ""
  },
  {
   "property": "C111",
   "status": "proved",
   "theorems": [
    "C111_projection_refuted",
    "C111_projection_is_empty"
   ],
   "note": ""
  },
  {
   "property": "C112",
   "status": "proved",
   "theorems": [
    "C112_single_layer",
    "C112_tension_field",
    "C112_tension_field_cauchy_refuted",
    "C112_transform",
    "C112_wrinkling",
    "C112_principal_strain_refuted",
    "C112_principal_strain_three_rows",
    "C112_output_functions",
    "C112_output_directions",
    "C112_stress_direction_refuted",
    "C112_stress_direction_kind",
    "C112_stress_direction_empty",
    "C112_composite",
    "C112_composite_kinematic",
    "C112_composite_unavailable",
    "C112_composite_matrix_other",
    "C112_composite_thickness_refuted",
    "C112_composite_thickness_rows",
    "C112_integrated",
    "C112_integrated_composite",
    "C112_integrated_tension_composite_refuted",
    "C112_linear_C_refuted",
    "C112_entries_in_range"
   ],
   "note": "five groups of outputs violate it: refuted with witnesses"
  },
  {
   "property": "C113",
   "status": "proved",
   "theorems": [
    "C113_every_height",
    "C113_single_height",
    "C113_detF",
    "C113_throws",
    "C113_into_one_point",
    "C113_directions_one_point",
    "C113_into_refuted",
    "C113_heights_refuted"
   ],
   "note": ""
  },
  {
   "property": "C114",
   "status": "proved",
   "theorems": [
    "C114_session",
    "C114_slots_independent",
    "C114_failure_keeps",
    "C114_failure_overwrites",
    "C114_base_isolated",
    "C114_inherited_refuted",
    "C114_default_continuity_refuted",
    "C114_update_bcs_refuted",
    "C114_mass_first",
    "C114_mass_stale_refuted"
   ],
   "note": "Histories over setters, linear and nonlinear assembly, mass, dual requests and the inherited assembler; whether a copied gsExprAssembler shares the trial space is a parameter, theorems hold for both. Integration results are oracles. Refutations: inherited assembly ignores pressure, default continuity and updateBCs against dual numbering, mass matrix with a stale or unwritten status."
  },
  {
   "property": "C115",
   "status": "proved",
   "theorems": [
    "C115_helper",
    "C115_failed_part_refuted",
    "C115_default_continuity_refuted",
    "C115_sizes_refuted"
   ],
   "note": "computeError up to the call of the estimator. Refutations: failed part counted twice, mixed numberings and sizes with the default continuity."
  },
  {
   "property": "C116",
   "status": "proved",
   "theorems": [
    "C116_planar_is_flat_shell",
    "C116_linear_refuted",
    "C116_contravariant_basis"
   ],
   "note": "Holds for all hyperelastic laws and implementations; refuted for the linear material."
  },
  {
   "property": "C117",
   "status": "proved",
   "theorems": [
    "C117_shell",
    "C117_planar",
    "C117_linear_matrix",
    "C117_linear_stress",
    "C117_linear_bending_refuted",
    "C117_planar_no_bending",
    "C117_indefinite",
    "C117_degenerate",
    "C117_linear_stress",
    "C117_linear_matrix"
   ],
   "note": "Holds for hyperelastic laws; linear material: matrix, generic and mid-surface membrane outputs agree, bending output refuted."
  },
  {
   "property": "C118",
   "status": "proved",
   "theorems": [
    "C118_neo_hookean",
    "C118_differences",
    "C118_no_shear",
    "C118_differences_refuted",
    "C118_batch"
   ],
   "note": "Closed form proved; difference-based form characterised and refuted (halved shear); batch behaviour proved. The differentiation routine of the G+Smo core is an argument with contract `exact`."
  },
  {
   "property": "C119",
   "status": "proved",
   "theorems": [
    "C119_orthogonal",
    "C119_lower_bound",
    "C119_refuted",
    "C119_interface"
   ],
   "note": "Linear isotropic material (A and D matrices); dim 3 branch of the Cartesian transformations. C119_refuted: the factor depends on the parametrisation and is unbounded under shear of the parameter lines, because the matrix is transformed in the transposed direction."
  },
  {
   "property": "C120",
   "status": "proved",
   "theorems": [
    "C120_exists_iff",
    "C120_unique",
    "C120_code",
    "C120_isotropic",
    "C120_found_refuted"
   ],
   "note": "Linear inner material (stress = C : strain with symmetric positive definite C; isotropic C from any positive definite metric covered by C120_isotropic). The search itself (Brent iteration) is modelled in C36/C86; C120_found_refuted: the acceptance test doubles the shear strain, so it can reject the only wrinkling direction."
  },
  {
   "property": "C121",
   "status": "proved",
   "theorems": [
    "C121_response",
    "C121_branch",
    "C121_continuous_choice"
   ],
   "note": "C121_response needs no hypothesis on the choice of the angle; C121_branch/C121_continuous_choice for general inner materials discharge the branch hypothesis of C83. Exact reals; the angle found is taken as an exact root (C36 bounds its error)."
  },
  {
   "property": "C122",
   "status": "proved",
   "theorems": [
    "C122_strain_free_iff_rigid",
    "C122_evaluated_strain",
    "C122_membrane_strain_alone_refuted",
    "C122_infinitesimal",
    "C122_three_supports",
    "C122_membrane_infinitesimal_refuted"
   ],
   "note": "Patch = open rectangle; the jets are the partial derivatives of the values up to second order (RigidSpec.smooth). Membrane-only versions are refuted (C122_membrane_strain_alone_refuted: plate rolled to a cylinder; C122_membrane_infinitesimal_refuted: transverse displacement of a plate)."
  },
  {
   "property": "C123",
   "status": "proved",
   "theorems": [
    "C123_quadratic_form",
    "C123_symmetric",
    "C123_semidefinite",
    "C123_null_space",
    "C123_unique_strains",
    "C123_minimum_energy",
    "C123_load_work",
    "C123_energy_balance",
    "C123_frequencies",
    "C123_modes_orthogonal",
    "C123_tangent_at_rest",
    "C123_linear_material",
    "C123_linear_material_at_rest",
    "C123_solvable",
    "C123_unsupported_load"
   ],
   "note": "3D with bending; body force and mass terms included, weak boundary/interface terms are C125 and C54/C88, foundation and pressure C52/C53. Composite sections: positive definiteness is C73."
  },
  {
   "property": "C124",
   "status": "proved",
   "theorems": [
    "C124_incompressible",
    "C124_compressible",
    "C124_third_form_differentiable",
    "C124_exact",
    "C124_assembled",
    "C124_stiffness_symmetric",
    "C124_energy_neo_hooke",
    "C124_energy_mooney_rivlin",
    "C124_membrane",
    "C124_membrane_exact",
    "C124_jacobian_refuted",
    "C124_symmetric_jacobian_refuted",
    "C124_membrane_refuted"
   ],
   "note": "analytical incompressible laws and compressible laws at the exact plane-stress root; the 1e-12 cut-off of eval3D_stress is not applied. The exact-tangent claim is refuted for curved deformed states with the exact defect."
  },
  {
   "property": "C125",
   "status": "proved",
   "theorems": [
    "C125_form",
    "C125_critical_penalty",
    "C125_floating_refuted",
    "C125_large_penalty",
    "C125_negative_option",
    "C125_coupling_form",
    "C125_coupling_solvable",
    "C125_coupling_limit"
   ],
   "note": "3D linear assembly, Weak Dirichlet and C0 interface terms; weak clamping and C1 coupling are C54/C88. That a weak condition keeps the system definite is refuted."
  },
  {
   "property": "C126",
   "status": "proved",
   "theorems": [
    "C126_energy",
    "C126_force",
    "C126_stiffness",
    "C126_newton_step",
    "C126_turned_model",
    "C126_pressure",
    "C126_spin",
    "C126_rotation_null_refuted"
   ],
   "note": "3D with bending, one displacement field on fixed quadrature points; resultants as functions of the strains of the point (their own objectivity is C03). Foundation, body forces and weak boundary terms are fixed in space and not part of the claim."
  },
  {
   "property": "C127",
   "status": "proved",
   "theorems": [
    "C127_mirror",
    "C127_mirror_reversed",
    "C127_swap",
    "C127_pressure",
    "C127_pressure_swap",
    "C127_integrated_wall",
    "C127_unsymmetric_mirror_refuted"
   ],
   "note": "Same model as C126; the swapped material is required to respond with re-indexed components (independence of the parametrisation is C67)."
  },
  {
   "property": "C128",
   "status": "proved",
   "theorems": [
    "C128_stretched",
    "C128_sound",
    "C128_complete",
    "C128_accepted",
    "C128_stress_side_refuted",
    "C128_root_missed_refuted",
    "C128_unsearched_refuted"
   ],
   "note": "std::atan2 is modelled on the reals with explicit signs of zero arguments; vanishing strains or stresses (atan2(0,-0)) are outside the model; gsFunction::newtonRaphson is an argument. The expected stress side is violated by the code (cosine of the stress angle divided by R_N instead of 2 R_N): refuted, with the true range proved."
  },
  {
   "property": "C129",
   "status": "proved",
   "theorems": [
    "C129_converges",
    "C129_returns",
    "C129_first_step",
    "C129_positive_refuted"
   ],
   "note": ""
  },
  {
   "property": "C130",
   "status": "proved",
   "theorems": [
    "C130_compressible",
    "C130_incompressible",
    "C130_answers"
   ],
   "note": ""
  },
  {
   "property": "C131",
   "status": "proved",
   "theorems": [
    "C131_eigenvectors_incompressible",
    "C131_eigenvectors_compressible",
    "C131_rotated_reference",
    "C131_rotated_reference_refuted"
   ],
   "note": "Holds away from the shortcut of _evalStretch; the refuted theorem shows that a rotation of the undeformed surface can switch the shortcut on."
  },
  {
   "property": "C132",
   "status": "proved",
   "theorems": [
    "C132_stress_shell",
    "C132_matrix_shell",
    "C132_thickness_and_strain",
    "C132_planar",
    "C132_prescribed",
    "C132_close_test_refuted"
   ],
   "note": ""
  },
  {
   "property": "C133",
   "status": "proved",
   "theorems": [
    "C133_stress",
    "C133_matrix",
    "C133_thickness_and_strain",
    "C133_small_units",
    "C133_units_refuted"
   ],
   "note": ""
  },
  {
   "property": "C134",
   "status": "proved",
   "theorems": [
    "C134_gradient",
    "C134_support",
    "C134_superposition",
    "C134_order",
    "C134_no_points",
    "C134_length_refuted",
    "C134_force_component"
   ],
   "note": ""
  },
  {
   "property": "C135",
   "status": "proved",
   "theorems": [
    "C135_hyperelastic_force",
    "C135_hyperelastic_stiffness",
    "C135_linear",
    "C135_loads",
    "C135_planar",
    "C135_planar_linear_refuted",
    "C135_planar_linear_law"
   ],
   "note": "Hyperelastic part under the hypothesis that gsAllCloseRelativeToMax answers alike in both parametrisations (C132_close_test_refuted shows it is needed) and that the thickness rule is mirrored with the normal; planar linear material refuted."
  },
  {
   "property": "C136",
   "status": "proved",
   "theorems": [
    "C136_energy_gradient",
    "C136_hessian",
    "C136_symmetric",
    "C136_energy_definite",
    "C136_hyperelastic",
    "C136_mass_and_foundation"
   ],
   "note": "Model RaModel (assembled vector and matrix with point evaluations as outcomes); the energy is stated in KoSpec from the jets only. The statement about hyperelastic materials is for the incompressible analytical implementation; the cut-off is an arbitrary test assumed inactive near the state."
  },
  {
   "property": "C137",
   "status": "proved",
   "theorems": [
    "C137_numbering",
    "C137_rows",
    "C137_second_derivatives",
    "C137_element_tangent",
    "C137_membrane_tangent",
    "C137_edge_rows",
    "C137_edge_entries",
    "C137_edge_unknown",
    "C137_assembled_gradient",
    "C137_assembled_jacobian",
    "C137_assembled_symmetric",
    "C137_order",
    "C137_sparsity",
    "C137_variable",
    "C137_variable_refuted"
   ],
   "note": "Layout of jac(space), tr(), flat(), symmetrize() and the global accumulation are contracts of the core library, stated in LayModel. deriv2 of a variable violates the expected point-wise meaning: refuted, with the true characterisation."
  },
  {
   "property": "C138",
   "status": "proved",
   "theorems": [
    "C138_relaxed_energy",
    "C138_returned_stress",
    "C138_stress_is_gradient",
    "C138_nonexpansive",
    "C138_classified",
    "C138_strain_criterion_refuted",
    "C138_stress_criterion_refuted",
    "C138_slack_multiplier_refuted",
    "C138_tangent",
    "C138_matrix_symmetric_refuted"
   ],
   "note": "Mid-surface (z=0), linear inner material, where strain and inner stress are related by the moduli. Relaxed energy, admissible wrinkle strains and the three states are defined in TfrSpec without reference to the code. The search for the angle is an oracle whose contract (a wrinkled state's angle) is the conclusion of C36/C120. Symmetry of the code's matrix, the two other criteria and SlackMultiplier > 0 are refuted with witnesses."
  },
  {
   "property": "C139",
   "status": "proved",
   "theorems": [
    "C139_force_is_gradient",
    "C139_jacobian",
    "C139_exact"
   ],
   "note": "Membrane only (no bending), one material value per point multiplied by the thickness (C68). The contract on tension field and search (answers) is instantiated by an explicit classifier and angle for unit modulus, Poisson ratio 0."
  },
  {
   "property": "C140",
   "status": "proved",
   "theorems": [
    "C140_reported",
    "C140_not_reported",
    "C140_taut_or_slack",
    "C140_accuracy",
    "C140_energy",
    "C140_residual",
    "C140_exact",
    "C140_unchecked_refuted"
   ],
   "note": "Linear inner material, exact real arithmetic. The a posteriori bound holds for any angle with non-negative amount and positive tension; convergence of the search itself is C36, C86, C128. C140_unchecked_refuted: an unchecked angle (0, the fallback value) solves the wrinkling equation with compressive stress."
  },
  {
   "property": "C141",
   "status": "proved",
   "theorems": [
    "C141_force",
    "C141_stiffness",
    "C141_rigid_free",
    "C141_turned_model",
    "C141_balance",
    "C141_edge_found",
    "C141_gap_refuted"
   ],
   "note": "C141_force and C141_stiffness for the superposed rigid motion, C141_rigid_free, C141_turned_model (rotations and mirrors), C141_balance, C141_edge_found; C141_gap_refuted gives two patches with a gap for which a quarter turn causes coupling forces. The penalty factors are arbitrary functions of the strains of the left patch."
  },
  {
   "property": "C142",
   "status": "proved",
   "theorems": [
    "C142_force",
    "C142_stiffness",
    "C142_linear_stiffness",
    "C142_surface_load",
    "C142_pressure",
    "C142_mass",
    "C142_equilibrium",
    "C142_newton_step",
    "C142_linear_solution",
    "C142_frequencies",
    "C142_linear_material",
    "C142_linear_material_computed",
    "C142_boundary_terms",
    "C142_penalty",
    "C142_coupling_force",
    "C142_coupling_stiffness",
    "C142_coupling_undeformed",
    "C142_coupling_stiffness_refuted",
    "C142_clamped",
    "C142_clamped_refuted"
   ],
   "note": "Built on the models of C80/C118 (assembly), C135 (linear material computed through the thickness) and C141 (coupling). C142_coupling_stiffness needs the two in-plane angle terms to cancel at each point when the C1 coupling is on; C142_coupling_stiffness_refuted and C142_clamped_refuted give points at which the terms scale with another power of length; C142_clamped gives the exact law of the clamped terms."
  },
  {
   "property": "C143",
   "status": "proved",
   "theorems": [
    "C143_residual",
    "C143_matrix",
    "C143_newton",
    "C143_equilibrium",
    "C143_loads_balance",
    "C143_tangent",
    "C143_symmetric",
    "C143_symmetric_undeformed",
    "C143_energy",
    "C143_coupling_stiffens",
    "C143_gap_refuted"
   ],
   "note": "All degrees of freedom are free and the loads are given per control point; interfaces carry their own switches for the two lists. C143_gap_refuted: two patches with a gap, held in equilibrium by loads with a net moment."
  }
 ]
}