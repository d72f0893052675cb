# Design of the formal model of gismo/gsKLShell

## 1. Approach

The library is a C++ template library on top of G+Smo.  Nothing of G+Smo or Eigen is modelled: geometry evaluation, basis
functions, the element loops of the expression assembler, eigen-solvers, quadrature rules, XML parsing and linear solvers
appear as *arguments* of the model (values of tangents and second derivatives, basis values, a quadrature rule, an
eigen-decomposition, a degree-of-freedom map, ...), with the contract stated in the header of the model file.  What is modelled
is the code in `/repo/src`: formulas, index arithmetic, dispatch, loops, state kept between calls.

* Scalars `T` are Coq reals `R`.  Rounding is **not** modelled: all numeric theorems are about exact arithmetic.  Where the code
  uses a rounding threshold (`math::lessthan`, `numeric_limits::epsilon`) the threshold is an argument and theorems hold for all values.
* Vectors / tensors are functions `nat -> R`, `nat -> nat -> R` (indices as in the code, zero based); statements are
  component-wise, for indices in range.
* Sequential state (assembler, tension-field wrapper, container, evaluator registration) is a record with `step` functions;
  histories are lists of operations.
* Undefined behaviour (out-of-bounds access, null dereference, mismatching sizes in a release build) and throwing
  (`GISMO_ENSURE`, `GISMO_ERROR`, `GISMO_NO_IMPLEMENTATION`) are distinct outcomes, never defaulted away.  `GISMO_ASSERT` is a
  debug-only check and therefore undefined behaviour in the model.

Each area `X` has files `XModel.v` (definitions with citations of file and lines), `XSpec.v` (specification that does not use the
model), `XProofs.v` (lemmas) and `XProps.v` (property theorems `Cnn_...`, each followed by `Print Assumptions`, and `Example`s
showing that hypotheses are satisfiable by non-trivial instances).

A property the code violates is stated as the true characterisation (where it holds, what it returns instead) together with a
theorem with suffix `_refuted` exhibiting the counterexample, so that a repaired program would make the `_refuted` theorem fail.

## 2. Trusted base

* Coq 8.16.1 kernel; the standard library; Coquelicot (definitions of derivative and integral and their lemmas, all proved).
* No axiom of our own, no functor, no module type, no plugin, no kernel check switched off.
* Axioms of the standard library, as listed by `Print Assumptions` (section 6 lists them for each theorem):
  `ClassicalDedekindReals.sig_forall_dec`, `ClassicalDedekindReals.sig_not_dec` (construction of the reals),
  `FunctionalExtensionality.functional_extensionality_dep`, `Classical_Prop.classic` (through real-analysis lemmas).
* The faithfulness of the hand translation: each definition cites the lines it mirrors; simplifications are in the comment at the definition.
* The contracts of the core library listed in section 4.

## 3. What is modelled

| ids | area / files | modelled code | main techniques |
|---|---|---|---|
| C01-C04 | Metric | `_computeMetric*_impl`, `_getMetric*_impl`, `_getMetric` of gsMaterialMatrixBaseDim.hpp (dim 3; dim 2 where C67 needs it) | algebra, Lagrange identity, orthogonal matrices |
| C05-C07, C67 | Linear | `_Cijkl`, `_Sij`, `_E` of gsMaterialMatrixLinear.hpp, also the planar variant | algebra; positive definiteness by sums of squares; change of basis |
| C08-C10, C68, C69 | Integrate | dispatch of `eval_into`, `integrateZ_into`, `multiplyZ_into`, `multiplyLinZ_into`, `getMoment` (gsMaterialMatrixIntegrate) | Riemann integrals of polynomials, induction over the degree |
| C11-C13 | Batch | column indexing and result allocation of the batched material loops, stale metric of principal quantities | induction over loops |
| C14, C15, C70, C71 | Principal, PStress | `_evalPStress/_evalPStrain/_evalStretch`, `_tensionField`, basis transforms | eigen-decompositions as arguments; case analysis |
| C16-C20, C72-C74 | Composite | ply loop, rotation matrix, resultants, density, orthotropic constructors of getMaterialMatrix.h | induction over plies, integrals, algebra |
| C21-C28, C31, C75-C77 | Nonlinear, Energy | `_Sij`, `_Cijkl`, `_Cijkl3D`, `_dPsi`, `_d2Psi`, `dCijkl` in Analytical and Generalized form | algebra, derivatives |
| C24, C79-C81 | Spectral | stretch-based `_Sii`, `_Cijkl`, `_dPsi_da`, Ogden law | eigenvalue perturbation (differentiable eigen-pairs proved), algebra |
| C29, C30, C78 | Newton33 | `_eval3D_Compressible_C33` loop with its iteration budget | loop invariants, intermediate values, monotonicity |
| C32-C38, C82-C86 | TFT | gamma, objective and derivative, modified stress/strain/tangent, dispatch, Brent and bisection loops, explicit mode | trigonometric algebra, derivatives, IVT, loop invariants |
| C39-C42, C92, C93 | Asm | state of gsThinShellAssembler between calls: loads, rhs, status, Dirichlet mode, bases, masses | invariants over call histories |
| C43-C46 | Dof | interface initialisation, solution vectors, boundary force, point loads | list induction |
| C47-C54, C87-C91 | Kin | all expressions of gsThinShellUtils.h used by the assembler (var1, var2, deriv2, tangents, outer normals), force/stiffness/pressure/foundation/mass/MIP/coupling/weak boundary densities | derivatives along arbitrary curves, assembled sums |
| C55-C58, C65, C98 | Config | material ids, factory, XML, container, parameter setters, TFT setters | case analysis, list induction |
| C59, C60 | Indicator | element distribution of point loads by parallel threads, normalised indicators | all interleavings, permutations |
| C61, C106 | Dwr | goal functionals, dual load vectors (gsThinShellAssemblerDWR) | derivatives, algebra |
| C62, C102-C105, C107 | Est | computeError, computeErrorElements, computeErrorDofs, computeErrorEig, matrixNorm | algebra over quadrature sums, Cauchy-Schwarz |
| C63, C64, C99-C101 | Func | gsFunctionSum, gsShellStressFunction, cartcov/cartcon | algebra, case analysis |
| C66, C96, C97 | Eval | which geometry an evaluator uses, shared material objects | call histories |
| C94 | Copy | copy/move of assembler objects | object graph with addresses |
| C95, C109-C111 | Diag | getArea, getDisplacementNorm, getElasticEnergy, deformationNorm, interfaceError*, _isInPlane, projectL2 | second-order chain rule, isometries |
| C108 | Strain | `eval3D_strain`, `_E` at height z | algebra |
| C112 | Size | result shapes of the material and integration entry points for each quantity, material and dimension | case analysis, loops over points and heights |
| C113 | Stretch | principal stretches of compressible materials at several points and heights | loops, eigenvalue characterisation |
| C114, C115 | Sess | call histories of gsThinShellAssemblerDWR and gsThinShellDWRHelper: which space, geometry and solution each call sees | state machine, invariants over histories |
| C116-C118 | Pt | point evaluation (`eval3D_*_C`, dim 2 elements, `eval3D_dmatrix`) | derivatives, refutation by witness |
| C119 | Pen | automatic penalty factors of weak boundary and interface conditions | algebra in the Cartesian frame |
| C120, C121 | TFTBranch, TFTWrinkle, TFTImplicit, TFTBranchProps (model TFTModel) | existence, uniqueness and smoothness of the wrinkled state | energy minimisation over directions, implicit function argument in one variable |
| C122 | RigidSpec, RigidProofs, RigidProps (models MetricModel, KinModel) | strain-free deformations / displacements are rigid | moving frame is constant along parameter lines |
| C123 | LinModel, LinSpec, LinProofs, LinProps | linear static and modal problem | quadratic forms over dof vectors |
| C124 | HypModel, HypSpec, CurveProofs, HypProofs, HypProps | stiffness of hyperelastic shells | laws along curves of metrics, third fundamental form |
| C125 | WeakModel, WeakSpec, PenaltyProofs, WeakProofs, WeakProps | weak displacement conditions and coupled patches | penalised symmetric systems, critical penalty, 1/t estimates |
| C126, C127 | ObjModel, ObjSpec, ObjProofs, ObjAsm, ObjSwap, ObjProps | moved, mirrored and re-parametrised shells at assembly level | orthogonal maps through every expression, tangent along spins |
| C128 | TFTIvModel, TFTIvSpec, TFTIvProofs, TFTIvProps | first search interval of the wrinkling angle | arcs of admissible directions, atan2 with signed zeros |
| C129 | PSConv (over Newton33) | the same loop from its start value 1/J0^2, all three laws | the transverse stress is increasing and concave below an explicit bound, so Newton's method is monotone; geometric rate and iteration budget |
| C130 | PtUse (over Pt, PSConv) | `eval3D_stress` / `eval3D_matrix` of one shell point, both implementations, with the thickness iteration | the chain of calls unfolds to the law's formulas; C129 gives an answer |
| C131 (and C79, C80 at coincident stretches) | SpectralEqual, SpectralCoinc, SpectralEqProps | `_evalStretch`, `_Sij`, `_Cijkl`, `_Cabcd` of the stretch-based implementation | uniqueness of the eigen-dyads, isotropy of the projected tangent at equal stretches, a fixed frame diagonalising a line of metrics |
| C132 | ReparSpec, ReparTens, ReparProofs, ReparGeo, ReparProps (models PtModel, NonlinearModel, SpectralModel) | point evaluations under a change of parameters | tensoriality of every law (closure lemmas), transformation of all members of a configuration |
| C133 | ReparSpec, UnitProofs, UnitProps (models as C132) | point evaluations under a change of units | homogeneity of every law in the moduli, C132's relation with a multiple of the identity; contract of gsAllCloseRelativeToMax: largest difference <= tol * largest entry |
| C134 | GoalPt (models DwrModel, DofModel) | dual load of a goal given by points: scatter of the evaluated rows into the numbering | loop invariants, C61 for the pointwise densities |
| C135 | Ra (models KinModel, PtModel) | assembled force and stiffness in other parameters | chain rule, orthogonality of the normal and its variations, C132 for the materials; refuted for the planar linear material |
| C136 | Ko (model RaModel) | gradient and Hessian of Koiter's energy; hyperelastic point evaluations | force and matrix equal those of KinAsm with the resultants of the linear material, C50, C07; C124 with the closeness test and admissibility near the state |
| C137 | Lay | numbering of the local degrees of freedom; assembly by elements | loops of the expressions write every entry (invariant per entry), entries equal Kstiff / Fint of KinModel, sums over elements equal Kmat / Fvec of KinAsm, then C50, C51 |
| C138 | Tfr | relaxed energy of the tension field | optimality conditions of the wrinkle strain imply minimality; two states compared by one quadratic inequality (convexity and non-expansiveness), squeezed to the derivative; principal values to directions for the classification |
| C139 | Tfr | assembled tension-field membrane | chain rule over points with the relaxed energy; implicit function of C121 along the curved strain path of each point |
| C140 | Tfa | theta and gamma outputs; stress with an approximate angle | frame decomposition of the reported stress, strong convexity of the energy and the complementarity conditions of C138 |
| C141 | Wif | weakly coupled patches of a moved structure | orthogonal relation of tangent, outer normal and their variations; linearity in the test pair; virtual work of rigid fields |
| C142 | Usm | change of units of the assembled problem | every primitive (normal, variations, strains, penalties) is homogeneous; sums over points related pointwise; exact law of the terms that are not homogeneous |
| C143 | Str | structures of many weakly coupled patches | sums over patches and interfaces of C126 and C141; virtual work of rigid velocities; C50 and the affine coupling terms for the derivative; C51 and the pairing of the blocks for symmetry and energy |

## 4. Contracts assumed of code outside the repository

* Geometry maps: `normals` is the cross product of the jacobian columns; `deriv2` in the order 11, 22, 12; basis data likewise.
  Jacobian, second derivatives and basis values are consistent derivatives of one map (only used where a theorem says so).
* Expression assembler: `initSystem` zeroes matrix and vector, `initVector` the vector only, `cleanUp` neither; `assemble` adds
  weight times expression over the quadrature points of all elements; `setup(bc, mode, continuity)` fixes map and eliminated values;
  vector-valued spaces order their dofs component by component; an expression without test space cannot be assembled as a vector.
* Expression evaluator: `integral`, `integralInterface`, `integralBdrBc` are weighted sums, `maxInterface` a maximum,
  `eval(expr, point)` without patch index uses patch 0; `fform2nd` uses the unit normal.
* `gsDofMapper`: `index(k,p,c)`; numbers below `freeSize()` are free; `solution.extract` reads free values from the vector and the others from `fixedPart()`.
* Eigen: `normalize()` leaves the zero vector alone, `SelfAdjointEigenSolver` returns an orthonormal eigen-basis in ascending order,
  `.inverse()` of 2x2 and 3x3 matrices is the adjugate formula.
* Quadrature in thickness: a rule exact up to its degree (`exact_to` in IntegrateSpec).
* `math::lessthan(a,b)`: a is smaller than b by more than some threshold `eps >= 0`; theorems hold for each `eps`.
* XML layer: attributes and children are stored and found by name; numbers are stored exactly.
* A moved-from `gsMultiBasis` has unspecified content.
* A copy of `gsExprAssembler` may or may not share its space objects with the original (C114, C115 hold in both cases).
* `gsFunction::deriv_into` returns the derivative wherever it exists (C118; the real one is a difference quotient).
* `el.area(map)` is the area of the element the point lies in (C119 takes it as a positive number).

## 5. What is not modelled

* Floating-point rounding, NaN/Inf propagation, performance, memory management other than null/dangling pointers named above.
* Finite-element convergence, interpolation errors, everything inside G+Smo, Paraview output (`plotSolution`), the example programs, Python bindings.
* Planar (dim 2) branches of materials and stress functions except where named (C67, C109, C116, C117, C132, C135).
* Tension field: `newtonRaphson` of the core is an argument; termination of Brent's
  loop is bounded by its iteration budget only; existence of a differentiable angle branch is a hypothesis of C34/C83 that C121 discharges for non-degenerate roots.
* Unstructured-spline (mapped) spaces except the solution round trip (C44).
* Hyperelastic resultants depend on the third fundamental form; C50 takes the tangents of the resultants as a hypothesis (`has_tangents`), discharged for the linear material and for laminates of quadrature points with consistent material tangents. C124 treats them: it gives the derivative of the internal force, the part the assembled stiffness leaves out, and where that part vanishes.

## 6. Assumptions per theorem (output of `Print Assumptions`)

* **closed under the global context (no axiom)** — 144 theorems: C11_batch_is_pointwise, C11_column_bijection, C12_last_metric, C12_stretch_pointwise, C12_uniform_metric, C13_in_range, C13_out_of_range_refuted, C28_voigt_matrix, C38_after_throw_refuted, C38_outcome, C38_restores, C38_throw_keeps_frozen, C39_clearing_point_loads_refuted, C39_matrix_resets_vector, C39_old_discretisation_refuted, C39_pressure_vector_added, C39_pressure_vector_invisible, C39_rhs_is_last_assembly, C39_stale_characterisation, C40_late_option_refuted, C40_late_option_wrong_size_refuted, C40_pressure_dropped_refuted, C40_registered_loads, C41_mass_status, C41_mass_status_refuted, C41_status_of_assemblies, C42_const_method_changes_next_assembly, C42_linear_history_refuted, C42_linear_uses_current_mode, C42_nonlinear_history_free, C42_prescribed_values_current, C43_add_refuted, C43_default_assignment, C43_idempotent, C43_other_defaults, C43_user_lists, C44_constructed_field, C44_field_recovered, C44_round_trip, C55_eleventh_material_refuted, C55_injective, C55_roundtrip, C56_builds_exactly_what_is_offered, C56_defaults, C56_identifier_decodes, C56_linear_ignores_switches, C56_null_iff, C56_throws_iff, C56_unknown_numbers_refuted, C57_factory_product_lost_refuted, C57_factory_products, C57_parameters_by_index, C57_read_outcomes, C57_roundtrip, C57_roundtrip_tension_field, C57_unknown_class, C57_wrapper_members_lost_refuted, C57_written_iff, C58_add, C58_history, C58_null_pieces_refuted, C58_out_of_range, C58_piece_iff, C58_read, C58_set, C65_get_outcomes, C65_incomplete_refuted, C65_mooney_any_order, C65_mooney_wrong_count, C65_names_distinct, C65_ogden_any_order, C65_set_get, C65_wrong_name, C66_integrating_evaluators, C66_pointwise_evaluators, C66_wrapper_copies_undeformed_iff, C66_wrapper_refuted, C92_set_basis_container, C92_set_basis_refuted, C92_set_basis_single_material, C93_point_mass_ignored, C93_point_mass_refuted, C94_copy_of_container, C94_copy_of_single_material, C94_dangling_refuted, C94_deep_copy_refuted, C94_move_of_container, C94_set_basis_on_copy, C94_values_without_container, C96_construction_succeeds_iff, C96_independent_refuted, C96_last_constructed_wins, C96_null_material_undefined, C96_own_geometry, C96_short_container_throws, C96_single_material_multipatch, C97_all_coefficients_at_previous, C98_getters_show_last, C98_named_setters_throw, C98_parameter_count, C98_raw_parameters_forwarded, C98_setters_take_effect_refuted, C98_wrapper_setters_inert, C109_planar_undefined, C111_projection_is_empty, C112_composite, C112_composite_kinematic, C112_composite_matrix_other, C112_composite_thickness_refuted, C112_composite_thickness_rows, C112_composite_unavailable, C112_entries_in_range, C112_integrated, C112_integrated_composite, C112_integrated_tension_composite_refuted, C112_linear_C_refuted, C112_output_directions, C112_output_functions, C112_principal_strain_refuted, C112_principal_strain_three_rows, C112_single_layer, C112_stress_direction_empty, C112_stress_direction_kind, C112_stress_direction_refuted, C112_tension_field, C112_tension_field_cauchy_refuted, C112_transform, C112_wrinkling, C114_base_isolated, C114_default_continuity_refuted, C114_failure_keeps, C114_failure_overwrites, C114_inherited_refuted, C114_mass_first, C114_mass_stale_refuted, C114_session, C114_slots_independent, C114_update_bcs_refuted, C115_default_continuity_refuted, C115_failed_part_refuted, C115_helper, C115_sizes_refuted, C118_batch, C137_numbering.
* **`sig_forall_dec`** — 16 theorems: C20_raw_positions, C21_output_components, C44_mapped_coefficients, C44_mapped_construction, C44_missing_patch_indeterminate, C44_update_ignores_geometry, C63_copy_alive, C63_copy_refuted, C63_destroyed_undefined, C65_terms_of_the_stress, C69_principal_bending_stress_zero, C74_density, C74_no_density_refuted, C76_always_zero, C134_no_points, C137_variable.
* **`functional_extensionality_dep`, `sig_forall_dec`** — 107 theorems: C02_midsurface_dual, C05_guard, C05_linear_symmetries, C06_engineering_constant, C06_plane_stress, C06_uniaxial, C07_bounds_sharp, C07_linear_positive_definite, C10_failure, C10_kind_selected, C12_principal_batch_refuted, C14_criteria_consistent, C14_monotone, C14_option_guard, C14_scale_invariant, C14_slack_complete, C14_slack_sound, C14_taut_iff, C20_orthotropic, C20_orthotropic_posdef, C21_incompressible, C21_incompressible_generalized, C22_incompressible, C23_incompressible, C29_returned, C29_thrown, C35_principal_columns, C35_slack_is_zero, C36_decreasing_bracket, C37_budget_irrelevant, C37_fixed_point, C37_never_converges, C37_success_iff, C37_success_refuted, C44_mapped_round_trip_refuted, C44_uncoupled_field_refuted, C44_update_refuted, C45_disjoint_sides_add, C45_sides_as_a_set, C45_sum_over_set, C46_load_on_fixed_function_lost, C46_only_active_entries, C46_order_irrelevant, C46_superposition, C46_total_load, C46_virtual_work, C53_force_is_not_restoring, C54_interface_2d_linear_refuted, C54_interface_psd, C54_weak_dirichlet_indefinite_refuted, C54_weak_dirichlet_value_2d, C54_weak_dirichlet_value_3d, C59_element_in_no_box, C59_equal_shares_refuted, C59_outside, C59_schedule_exists, C59_schedule_independent, C59_shares, C59_single_patch, C59_sum, C60_normalised, C60_raw, C60_squared, C60_sum_one_refuted, C60_zero_total, C63_all_derivatives, C63_defined_iff, C63_order, C63_sum, C63_support, C63_support_refuted, C63_undefined, C67_planar_orthonormal_correct, C67_planar_refuted, C67_planar_scaling, C67_surface_parametrisation_independent, C68_tft_bending_stiffness, C69_disagrees_with_moment, C70_documented_direction_refuted, C70_transformation, C70_transformation_inverse, C72_cart2cov_iff, C77_incompressible, C78_unique, C90_mass_symmetric_psd, C90_total_mass, C103_sum, C103_throws_never_on_matching_mesh, C104_dofs_unchanged, C105_modal, C105_modal_psd, C105_modal_sym, C106_stress_components, C106_stretch_dual_basis, C106_stretch_orthonormal, C106_stretch_refuted, C111_projection_refuted, C117_planar_no_bending, C123_linear_material, C123_load_work, C127_integrated_wall, C135_planar_linear_law, C137_second_derivatives, C137_variable_refuted, C142_boundary_terms, C142_mass, C142_surface_load.
* **`functional_extensionality_dep`, `sig_forall_dec`, `sig_not_dec`** — 258 theorems: C01_metric_det_curvature, C01_metric_is_gram, C02_bases_dual, C03_objectivity, C03_rigid_motion_strain_free, C04_J0_is_area_ratio, C04_caustic, C05_stress_is_matrix_times_strain, C08_resultants_from_stiffness, C08_strain_expansion, C15_principal_stretches_refuted, C15_shortcut_wrong, C15_stretch_correct, C17_reversal, C17_symmetric_uncoupled, C18_group_action, C18_invariants, C18_isotropic, C18_rotated_energy, C18_symmetry_definiteness, C19_other_outputs, C19_resultants_omit_coupling, C19_symmetric_layup, C19_unsymmetric_refuted, C32_gamma_unique, C32_no_normal_stress, C32_uniaxial_iff_root, C32_wrinkling_strain, C34_exact_iff_no_coupling, C34_orthonormal_isotropic, C35_first_failure, C35_general_matrix_columns, C35_matrix_columns, C35_strain_columns, C35_stress_columns, C35_total, C35_unknown_rejected, C36_any_bracket, C36_increasing_bracket, C45_global_equilibrium, C47_first_variation_path, C47_unit_normal, C47_variation_is_tangential, C48_symmetric, C49_field_version, C49_symmetry_refuted, C50_quadrature_resultants, C51_density_symmetric, C51_matrix_symmetric, C61_components, C61_point_stretch_is_displacement, C61_principal_dual, C61_strain_dual, C61_strain_quantities, C61_stress_dual, C61_unanswered, C62_buckling_coincide_refuted, C62_buckling_coincide_straight, C62_buckling_forms_straight, C62_buckling_second_derivatives_refuted, C62_modal_coincide, C62_modal_exact, C62_modal_forms, C63_derivative, C64_local, C64_principal_stress_dir_refuted, C64_principal_stress_dir_undefined, C64_principal_stress_refuted, C64_renumber, C64_stretch_directions, C66_refuted, C66_strain_reported_zero, C68_tft_consistency_refuted, C68_tft_membrane_force, C68_tft_moment_vanishes, C71_principal_values, C71_strain_invariants, C71_stress_invariants, C71_stress_values, C71_trace, C72_orthogonal_energy, C72_skew_refuted, C73_abd_positive_definite, C75_volume_ratio, C82_accepted_iff, C82_refuted, C82_unsheared, C84_refuted, C84_wrinkled_cauchy, C85_physical_wrinkled_state, C86_accepted_or_zero, C86_period, C86_throws_only_on_budget, C86_zero_candidate, C87_outer_normal_variation, C87_tangent_column, C87_tangent_variation, C89_internal_force_balance, C89_linear_stiffness_null_space, C89_normal_rotates, C89_rigid_motion_strain_free, C91_mip_reduces_to_newton, C95_area_parametrisation, C95_area_rigid, C95_deformation_norm_refuted, C95_displacement_mean_refuted, C95_displacement_norm_growth, C95_displacement_norm_rms, C95_displacement_norm_translation, C95_displacement_norm_zero, C97_matrix_of_previous_material, C97_refuted, C97_separate_materials, C99_conjugate, C99_flexural_strain_engineering_iff, C99_flexural_strain_engineering_refuted, C99_flexural_strain_tensor_iff, C99_flexural_strain_tensor_refuted, C99_frame_exists_unique, C99_membrane_strain, C99_stress_components, C100_parametrisation_independent, C100_surface_hyper, C100_surface_refuted, C100_von_mises, C101_hyper_flexural, C101_hyper_flexural_refuted, C101_linear_cauchy, C101_principal_flexural_strain, C101_principal_flexural_strain_refuted, C101_principal_membrane_strain, C102_dofs, C102_equal_duals, C102_equilibrium, C102_galerkin, C102_linear, C102_membrane, C102_nested, C102_other_loads, C102_pressure_refuted, C102_residuals, C102_without_loads_refuted, C103_neumann_refuted, C103_total, C104_dofs_refuted, C105_buckling_loads, C105_buckling_loads_refuted, C105_buckling_second_derivatives_refuted, C105_buckling_straight, C105_buckling_sym, C107_bounds_error, C107_elements, C107_negative_refuted, C107_nonneg, C108_squared_lengths, C109_elastic_energy_refuted, C109_translation_dependent, C110_C0_error_zero, C110_G1_error_zero, C110_in_plane_refuted, C110_normal_error_refuted, C110_normal_error_value, C110_opposite_orientation, C110_smooth_surface_no_error, C116_contravariant_basis, C116_linear_refuted, C117_linear_bending_refuted, C117_linear_matrix, C117_linear_matrix, C117_linear_stress, C117_linear_stress, C119_interface, C119_lower_bound, C119_orthogonal, C119_refuted, C120_code, C120_found_refuted, C120_unique, C122_strain_free_iff_rigid, C123_energy_balance, C123_linear_material_at_rest, C123_modes_orthogonal, C123_quadratic_form, C123_symmetric, C123_tangent_at_rest, C124_stiffness_symmetric, C125_coupling_form, C125_form, C126_energy, C126_force, C126_newton_step, C126_pressure, C126_rotation_null_refuted, C126_spin, C126_stiffness, C126_turned_model, C127_mirror, C127_mirror_reversed, C127_pressure, C127_pressure_swap, C127_swap, C127_unsymmetric_mirror_refuted, C134_force_component, C134_gradient, C134_length_refuted, C134_order, C134_superposition, C134_support, C135_loads, C135_planar_linear_refuted, C136_energy_definite, C136_mass_and_foundation, C136_symmetric, C137_assembled_symmetric, C137_edge_unknown, C137_order, C137_sparsity, C138_matrix_symmetric_refuted, C138_slack_multiplier_refuted, C140_not_reported, C140_reported, C140_residual, C140_taut_or_slack, C140_unchecked_refuted, C141_balance, C141_edge_found, C141_force, C141_gap_refuted, C141_rigid_free, C141_stiffness, C141_turned_model, C142_clamped, C142_clamped_refuted, C142_coupling_force, C142_coupling_stiffness, C142_coupling_stiffness_refuted, C142_coupling_undeformed, C142_equilibrium, C142_force, C142_frequencies, C142_linear_material, C142_linear_material_computed, C142_linear_solution, C142_linear_stiffness, C142_newton_step, C142_penalty, C142_pressure, C142_stiffness, C143_coupling_stiffens, C143_energy, C143_equilibrium, C143_gap_refuted, C143_loads_balance, C143_matrix, C143_newton, C143_residual, C143_symmetric, C143_symmetric_undeformed.
* **`classic`, `functional_extensionality_dep`, `sig_forall_dec`, `sig_not_dec`** — 212 theorems: C01_basis_of_offset_surface, C08_membrane_force, C08_moment, C08_stiffness, C09_affine_integrand, C09_constant_integrand, C10_default_rule, C10_output_moments, C10_output_moments_linear, C10_quadrature_exact, C10_strategies_agree, C16_laminate_moments, C16_not_integrated_twice, C21_compressible, C21_ogden, C21_output, C22_compressible, C23_compressible, C24_all_states_refuted, C24_compressible, C24_compressible_tangent, C24_incompressible, C24_incompressible_tangent, C24_thickness_component, C25_tangent, C26_tangent3D, C27_all_laws, C27_condensation, C27_nhe_root, C27_nhe_tangent, C28_symmetries, C29_small_residual_refuted, C30_accurate, C30_converges, C30_diverges, C30_throws, C31_dmatrix, C33_exact_at_root, C33_off_root_refuted, C33_theta_derivative, C34_tangent_refuted, C34_tangent_up_to_coupling, C36_decreasing_refuted, C36_wrinkling_angle, C47_first_variation, C48_contracted, C48_second_variation, C49_correct_iff, C49_derivative_refuted, C50_bending_strain_variation, C50_force_is_energy_gradient, C50_linear_material, C50_membrane_stiffness, C50_membrane_strain_variation, C50_stiffness_is_jacobian, C52_pressure, C53_consistency_refuted, C53_foundation_derivative, C54_interface_2d_sign_refuted, C54_interface_3d, C54_rotation_out_of_plane, C54_weak_dirichlet, C61_boundary_flexural_norm_refuted, C61_flexural_stress_hyperelastic_refuted, C61_point_stretch_refuted, C61_stretch_component_refuted, C61_stretch_scaled_refuted, C75_compressible_energy, C75_incompressible_energy, C76_cauchy_refuted, C77_compressible, C78_exists, C78_regular, C79_coincident_compressible, C79_coincident_incompressible, C79_compressible, C79_incompressible, C79_pressure_derivative, C80_coincident_compressible, C80_coincident_incompressible, C80_compressible, C80_incompressible, C80_principal_components, C81_compressible, C81_incompressible, C81_youngs_modulus_refuted, C83_column_tangent, C83_tangent_is_transposed, C83_tangent_refuted, C86_grid_candidates, C86_grid_complete, C87_second_variation_refuted, C87_second_variation_unit_columns, C88_in_plane_coupling_at_reference, C88_in_plane_coupling_refuted, C88_weak_clamped_matrix, C88_weak_clamped_refuted, C88_weak_clamped_vector_flat, C91_predicted_resultants, C101_linear_flexural, C108_through_thickness, C110_shape_operator, C113_detF, C113_directions_one_point, C113_every_height, C113_heights_refuted, C113_into_one_point, C113_into_refuted, C113_single_height, C113_throws, C116_planar_is_flat_shell, C117_degenerate, C117_indefinite, C117_planar, C117_shell, C118_differences, C118_differences_refuted, C118_neo_hookean, C118_no_shear, C120_exists_iff, C120_isotropic, C121_branch, C121_continuous_choice, C121_response, C122_evaluated_strain, C122_infinitesimal, C122_membrane_infinitesimal_refuted, C122_membrane_strain_alone_refuted, C122_three_supports, C123_frequencies, C123_minimum_energy, C123_null_space, C123_semidefinite, C123_solvable, C123_unique_strains, C123_unsupported_load, C124_assembled, C124_compressible, C124_energy_mooney_rivlin, C124_energy_neo_hooke, C124_exact, C124_incompressible, C124_jacobian_refuted, C124_membrane, C124_membrane_exact, C124_membrane_refuted, C124_symmetric_jacobian_refuted, C124_third_form_differentiable, C125_coupling_limit, C125_coupling_solvable, C125_critical_penalty, C125_floating_refuted, C125_large_penalty, C125_negative_option, C128_accepted, C128_complete, C128_root_missed_refuted, C128_sound, C128_stress_side_refuted, C128_stretched, C128_unsearched_refuted, C129_converges, C129_first_step, C129_positive_refuted, C129_returns, C130_answers, C130_compressible, C130_incompressible, C131_eigenvectors_compressible, C131_eigenvectors_incompressible, C131_rotated_reference, C131_rotated_reference_refuted, C132_close_test_refuted, C132_matrix_shell, C132_planar, C132_prescribed, C132_stress_shell, C132_thickness_and_strain, C133_matrix, C133_small_units, C133_stress, C133_thickness_and_strain, C133_units_refuted, C135_hyperelastic_force, C135_hyperelastic_stiffness, C135_linear, C135_planar, C136_energy_gradient, C136_hessian, C136_hyperelastic, C137_assembled_gradient, C137_assembled_jacobian, C137_edge_entries, C137_edge_rows, C137_element_tangent, C137_membrane_tangent, C137_rows, C138_classified, C138_nonexpansive, C138_relaxed_energy, C138_returned_stress, C138_strain_criterion_refuted, C138_stress_criterion_refuted, C138_stress_is_gradient, C138_tangent, C139_exact, C139_force_is_gradient, C139_jacobian, C140_accuracy, C140_energy, C140_exact, C143_tangent.

## 7. Mutation testing

`seeded/LOG.jsonl` has one line per wrong program tried: a definition of the model is edited in a scratch copy, everything depending on it
is rebuilt with failing proofs set aside, and the theorems whose proof no longer goes through (directly or through a lemma) are recorded.
Runs stop at the first property file with a failing theorem, so the list of failing theorems of a line need not be complete.
When no theorem failed, a theorem was added or strengthened (`theorems_tightened`) and the same edit was tried again.
