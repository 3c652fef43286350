{
 "claims": [
  {
   "property": "C01",
   "status": "proved",
   "theorems": [
    "C01_marin_is_fan_integral",
    "C01_marin_is_green_integral",
    "C01_marin_trapezoid",
    "C01_area_is_shoelace",
    "C01_marin_rejects_exactly_short_z"
   ],
   "note": "All rings, all exponents; region form proved for trapezoids (any polygon splits into these by C02_chord)."
  },
  {
   "property": "C02",
   "status": "proved",
   "theorems": [
    "C02_reverse",
    "C02_start_vertex",
    "C02_chord",
    "C02_linear_map",
    "C02_translation"
   ],
   "note": "Also general linear maps and translations."
  },
  {
   "property": "C03",
   "status": "proved",
   "theorems": [
    "C03_rectangle_accepts",
    "C03_rectangle_moments",
    "C03_rectangle_section_constants"
   ],
   "note": "Rectangle constructor and all moments."
  },
  {
   "property": "C04",
   "status": "proved",
   "theorems": [
    "C04_snap_to_max",
    "C04_snap_to_min",
    "C04_unchanged_otherwise",
    "C04_distance",
    "C04_idempotent",
    "C04_array_is_elementwise",
    "C04_array_is_elementwise_refuted"
   ],
   "note": "Full statement proved: scalar branch for all limits, arrays for separated limits, and the exception as a theorem (C04_array_is_elementwise_refuted)."
  },
  {
   "property": "C05",
   "status": "proved",
   "theorems": [
    "C05_elastic_arrays",
    "C05_elasticplastic_arrays",
    "C05_parabolarectangle_arrays",
    "C05_parabolarectangle_arrays_refuted",
    "C05_bilinear_arrays",
    "C05_bilinear_tangent_arrays",
    "C05_bilinear_tangent_arrays_refuted",
    "C05_sargin_arrays",
    "C05_sargin_tangent_arrays",
    "C05_sargin_arrays_refuted",
    "C05_popovics_arrays",
    "C05_userdefined_arrays"
   ],
   "note": "All seven laws; the three deviations are theorems (*_refuted)."
  },
  {
   "property": "C06",
   "status": "proved",
   "theorems": [
    "C06_elastic",
    "C06_elasticplastic",
    "C06_parabolarectangle",
    "C06_bilinear",
    "C06_sargin",
    "C06_popovics",
    "C06_userdefined"
   ],
   "note": "All seven laws, every strain outside the branch points and the snapping zones (UserDefined: flag 0)."
  },
  {
   "property": "C07",
   "status": "proved",
   "theorems": [
    "C07_elastic_odd",
    "C07_elastic_modulus_positive",
    "C07_elastic_limits_bracket_zero",
    "C07_limits",
    "C07_ep_odd",
    "C07_ep_odd_refuted",
    "C07_ep_elastic_range",
    "C07_ep_hardening_range",
    "C07_ep_zero_beyond_ultimate",
    "C07_ep_continuous_monotone",
    "C07_ep_bounded",
    "C07_pr_shape",
    "C07_pr_monotone",
    "C07_bilinear_shape",
    "C07_bilinear_default_refuted",
    "C07_sargin_shape",
    "C07_popovics_shape"
   ],
   "note": "All six laws and their constructors; deviations are theorems (C07_ep_odd_refuted, C07_bilinear_default_refuted)."
  },
  {
   "property": "C08",
   "status": "proved",
   "theorems": [
    "C08_parabolarectangle_general",
    "C08_parabolarectangle_exact",
    "C08_popovics",
    "C08_sargin",
    "C08_default_form_refuted",
    "C08_own_law",
    "C08_elastic",
    "C08_elasticplastic",
    "C08_elasticplastic_unlimited_refuted",
    "C08_parabolarectangle",
    "C08_bilinear",
    "C08_userdefined_tangent"
   ],
   "note": "Exact laws, the default discretisation (Sargin, Popovics, ParabolaRectangle with n<>2) and UserDefined tangents (stress form: C13_marin_form); deviations are theorems."
  },
  {
   "property": "C09",
   "status": "proved",
   "theorems": [
    "C09_secant",
    "C09_secant_array",
    "C09_secant_array_parabolarectangle",
    "C09_secant_array_elasticplastic",
    "C09_secant_array_bilinear_refuted"
   ],
   "note": "Scalars for every law, arrays whenever the array evaluation is elementwise (C05), with instances; the bilinear deviation is a theorem."
  },
  {
   "property": "C10",
   "status": "proved",
   "theorems": [
    "C10_caller_array_unchanged_refuted",
    "C10_order_independence_refuted",
    "C10_caller_array",
    "C10_order_independence"
   ],
   "note": "C10_caller_array, C10_order_independence for any list of laws; the unconditional statement is refuted by two theorems."
  },
  {
   "property": "C11",
   "status": "proved",
   "theorems": [
    "C11_mismatching_weights_rejected",
    "C11_stress_and_tangent",
    "C11_default_weights",
    "C11_array_evaluation",
    "C11_ultimate_strain",
    "C11_marin",
    "C11_marin_succeeds",
    "C11_marin_mixed_refuted"
   ],
   "note": "Any number of laws and weights; the mixed case is refuted by C11_marin_mixed_refuted."
  },
  {
   "property": "C12",
   "status": "proved",
   "theorems": [
    "C12_compatible",
    "C12_incompatible_is_constant",
    "C12_incompatible_tangent",
    "C12_tangent_is_derivative",
    "C12_caller_strain_untouched",
    "C12_marin_uniform",
    "C12_marin_tangent_uniform",
    "C12_marin_ranges_not_shifted_refuted",
    "C12_marin_incompatible_refuted"
   ],
   "note": "Deviations are theorems (C12_marin_ranges_not_shifted_refuted, C12_marin_incompatible_refuted)."
  },
  {
   "property": "C13",
   "status": "proved",
   "theorems": [
    "C13_length_mismatch_rejected",
    "C13_bad_flag_rejected",
    "C13_linear_between_points",
    "C13_points_are_hit",
    "C13_extension_right",
    "C13_extension_left",
    "C13_odd_completion",
    "C13_odd",
    "C13_ultimate_default",
    "C13_ultimate_given",
    "C13_marin_form",
    "C13_constant_extension_unbounded_refuted",
    "C13_odd_without_origin_refuted",
    "C13_point_near_limit_refuted"
   ],
   "note": "Deviations are theorems (*_refuted)."
  },
  {
   "property": "C14",
   "status": "proved",
   "theorems": [
    "C14_both_rejected",
    "C14_strain_matches_stress",
    "C14_failures",
    "C14_linear_law",
    "C14_material_with_initial_stress",
    "C14_material_with_initial_strain",
    "C14_compatibility",
    "C14_material_without_initial"
   ],
   "note": "Soundness of the Newton search for every law, only ValueError/RuntimeError otherwise, exactness for linear laws, resulting material and law."
  },
  {
   "property": "C15",
   "status": "proved",
   "theorems": [
    "C15_valid_selection",
    "C15_invalid_selection_raises_and_changes_nothing",
    "C15_abbreviations",
    "C15_editions",
    "C15_active_code",
    "C15_active_code_any_history",
    "C15_annex",
    "C15_factory_leaves_active_code_refuted",
    "C15_failed_factory_leaves_active_code_refuted",
    "C15_factory_without_code"
   ],
   "note": "Any history of calls; the factory deviation is a theorem in two variants."
  },
  {
   "property": "C16",
   "status": "proved",
   "theorems": [
    "C16_class_of_code",
    "C16_no_code_raises",
    "C16_invalid_code_raises",
    "C16_uncovered_material_raises",
    "C16_none_only_for_unregistered",
    "C16_none_exactly_for_unregistered",
    "C16_never_none_refuted"
   ],
   "note": "Characterises exactly when None is returned; C16_never_none_refuted shows a listed code for which it is."
  },
  {
   "property": "C17",
   "status": "proved",
   "theorems": [
    "C17_law_lowercase",
    "C17_unknown_law_rejected",
    "C17_unavailable_law_rejected",
    "C17_law_case_insensitive_refuted",
    "C17_all_laws_by_name_refuted",
    "C17_integrator"
   ],
   "note": "Registered names, rejections, integrator factory for every history; deviations are theorems."
  },
  {
   "property": "C18",
   "status": "proved",
   "theorems": [
    "C18_design_values",
    "C18_yield_strain",
    "C18_design_curve",
    "C18_perfectly_plastic",
    "C18_small_safety_factor_rejected",
    "C18_zero_modulus_rejected",
    "C18_inconsistent_data_rejected_refuted",
    "C18_zero_factor_rejected_refuted",
    "C18_law_follows_setter_refuted",
    "C18_ductility_classes"
   ],
   "note": "All three codes; deviations are theorems."
  },
  {
   "property": "C19",
   "status": "proved",
   "theorems": [
    "C19_forces",
    "C19_reuse_data",
    "C19_mesh_size",
    "C19_order_irrelevant",
    "C19_elastic_mesh_accuracy"
   ],
   "note": "Fibre forces for every section, mesh and profile equal the resultants of the material fibres in listing order (so grouping by law is irrelevant), reuse of integration data, order of surfaces/bars, mesh-size validation and default; for an elastic surface the axial force of any tiling mesh is exact and the moments converge with the square of the triangle size. The external mesher is a parameter of the model."
  },
  {
   "property": "C20",
   "status": "proved",
   "theorems": [
    "C20_symmetric_and_semidefinite",
    "C20_definite",
    "C20_jacobian",
    "C20_elastic_secant"
   ],
   "note": "Symmetry, quadratic form, semidefiniteness, definiteness for three non-collinear stiff fibres, Jacobian along every direction of the strain profile, exact K*profile for elastic fibres."
  },
  {
   "property": "C21",
   "status": "proved",
   "theorems": [
    "C21_forces_area",
    "C21_stiffness_area",
    "C21_rotation",
    "C21_forces",
    "C21_stiffness",
    "C21_law_fields",
    "C21_elastic_exact",
    "C21_spec_is_area_moments",
    "C21_data_reuse",
    "C21_unequal_bar_groups_refuted",
    "C21_surface_order_refuted"
   ],
   "note": "Any polygon with closed rings, any law with a described field; deviations are theorems."
  },
  {
   "property": "C22",
   "status": "proved",
   "theorems": [
    "C22_requested_curvature",
    "C22_balanced",
    "C22_solves",
    "C22_raises",
    "C22_any_integrator",
    "C22_exact_hit_refuted",
    "C22_softening_refuted"
   ],
   "note": "Deviations are theorems (C22_exact_hit_refuted, C22_softening_refuted)."
  },
  {
   "property": "C23",
   "status": "proved",
   "theorems": [
    "C23_through_pivot",
    "C23_balanced",
    "C23_solves",
    "C23_exact_hit_refuted"
   ],
   "note": "Deviation is a theorem (C23_exact_hit_refuted)."
  },
  {
   "property": "C24",
   "status": "proved",
   "theorems": [
    "C24_fiber",
    "C24_fiber_default",
    "C24_marin",
    "C24_exception_refuted",
    "C24_mesh_refuted"
   ],
   "note": "Every history of the modelled operations; deviations are theorems."
  },
  {
   "property": "C25",
   "status": "proved",
   "theorems": [
    "C25_mesh_used",
    "C25_invalid_rejected",
    "C25_ignored_refuted"
   ],
   "note": "Deviation is a theorem (C25_ignored_refuted)."
  },
  {
   "property": "C26",
   "status": "proved",
   "theorems": [
    "C26_exact_linear",
    "C26_no_mechanism",
    "C26_rectangles",
    "C26_converged",
    "C26_linear",
    "C26_raises",
    "C26_one_iteration"
   ],
   "note": "C26_converged for every integrator; C26_linear: exact solution for linear-elastic fibre sections with three non-collinear stiff fibres and max_iter>=3; C26_raises: only StopIteration or LinAlgError if the integrator itself does not fail; C26_one_iteration: with max_iter<=1 nothing is ever returned."
  },
  {
   "property": "C27",
   "status": "proved",
   "theorems": [
    "C27_within_limits",
    "C27_attained",
    "C27_raises"
   ],
   "note": "Over all geometries, limits and both yielding modes. C27_raises characterises the only failure."
  },
  {
   "property": "C28",
   "status": "proved",
   "theorems": [
    "C28_check",
    "C28_cached",
    "C28_extremes",
    "C28_largest_refuted"
   ],
   "note": "Deviation is a theorem (C28_largest_refuted)."
  },
  {
   "property": "C29",
   "status": "proved",
   "theorems": [
    "C29_numbers",
    "C29_total_refuted",
    "C29_count",
    "C29_nm",
    "C29_nm_complete",
    "C29_nmm",
    "C29_nmm_directions",
    "C29_nmm_fields_refuted",
    "C29_forces",
    "C29_ends",
    "C29_within",
    "C29_profiles",
    "C29_negative_refused",
    "C29_accepted",
    "C29_first_refuted",
    "C29_within_refuted"
   ],
   "note": "Deviations are theorems (*_refuted)."
  },
  {
   "property": "C30",
   "status": "proved",
   "theorems": [
    "C30_integrals",
    "C30_steiner",
    "C30_additive",
    "C30_translation",
    "C30_principal",
    "C30_zero_stiffness_rejected",
    "C30_separate_polygons_refuted",
    "C30_theta_sign_refuted"
   ],
   "note": "Both integrators; deviations are theorems."
  },
  {
   "property": "C31",
   "status": "proved",
   "theorems": [
    "C31_motion_is_isometry",
    "C31_translate_map",
    "C31_rotate_map",
    "C31_mirror_map",
    "C31_mirror_bad_axis",
    "C31_compose",
    "C31_link",
    "C31_surface_labels_refuted"
   ],
   "note": "C31_* theorems: isometry, exact rotation/mirror maps, composition, image of every surface and bar, area. C31_link connects with the integrators' model. The lost surface name/label is part of the statement (C31_surface_labels_refuted)."
  },
  {
   "property": "C32",
   "status": "proved",
   "theorems": [
    "C32_line_number_and_spacing",
    "C32_line_number",
    "C32_line_spacing",
    "C32_line_needs_number_or_spacing",
    "C32_line_single_bar_refuted",
    "C32_line_zero_length_refuted",
    "C32_geometry_after",
    "C32_line_geometry",
    "C32_circle_number",
    "C32_circle_number_and_spacing",
    "C32_circle_spacing",
    "C32_circle_double_bar_refuted",
    "C32_circle_rejects",
    "C32_circle_single_bar_refuted"
   ],
   "note": "Lines (three modes), circles (three modes), rejections, resulting geometry. The degenerate cases named in the statement are refutation theorems (single bar, zero length, double bar)."
  },
  {
   "property": "C33",
   "status": "proved",
   "theorems": [
    "C33_nested_construction",
    "C33_addition",
    "C33_area_is_sum",
    "C33_extents",
    "C33_extents_ignore_bars_refuted",
    "C33_subtraction",
    "C33_subtraction_flag_refuted",
    "C33_reinforced_concrete",
    "C33_multipolygon",
    "C33_multipolygon_refuted"
   ],
   "note": "Any nesting. Shapely's polygon difference is a parameter. Exceptions named in the statement are refutation theorems."
  },
  {
   "property": "C34",
   "status": "proved",
   "theorems": [
    "C34_fctm",
    "C34_fctm_2023",
    "C34_fctm_increases",
    "C34_fctm_increases_refuted",
    "C34_fractiles",
    "C34_fcm",
    "C34_moduli",
    "C34_moduli_rejected",
    "C34_moduli_increase",
    "C34_mc_tables",
    "C34_mc_tables_monotone",
    "C34_strain_order",
    "C34_strain_order_refuted",
    "C34_fcd",
    "C34_fcd_2023",
    "C34_creep_table",
    "C34_shrinkage_table",
    "C34_phi_correction",
    "C34_fctd_2023",
    "C34_thermal_refuted",
    "C34_strain_values_2004",
    "C34_strain_values_2023",
    "C34_fracture_energy",
    "C34_constants_2023"
   ],
   "note": "Exceptions named in the statement are theorems: C34_fctm_increases_refuted, C34_strain_order_refuted, C34_thermal_refuted. scipy griddata is a parameter with the contract S_Conc.interpolates (satisfiable: C34_interpolation_exists). Floats are reals."
  },
  {
   "property": "C35",
   "status": "proved",
   "theorems": [
    "C35_beta_cc",
    "C35_beta_ct",
    "C35_time_values",
    "C35_cement_class",
    "C35_mc2010",
    "C35_mc2010_modulus"
   ],
   "note": "Floats are reals; ages t > 0."
  },
  {
   "property": "C36",
   "status": "proved",
   "theorems": [
    "C36_ec_drying",
    "C36_ec_k_h",
    "C36_autogenous",
    "C36_ec_basic",
    "C36_ec_total",
    "C36_ec_alphas",
    "C36_ec_alpha_powers",
    "C36_ec_humidity",
    "C36_ec_creep",
    "C36_ec_phi0",
    "C36_adjusted_age",
    "C36_temperature_age",
    "C36_ec_cement",
    "C36_mc_cement",
    "C36_mc_drying",
    "C36_mc_humidity",
    "C36_mc_basic_creep",
    "C36_mc_drying_creep",
    "C36_mc_nonlinear",
    "C36_mc_values",
    "C36_ec_size",
    "C36_mc_size",
    "C36_mc_total"
   ],
   "note": "Development functions of MC2010 creep are stated for t >= t0 (the code does not clamp them; numpy gives nan before)."
  },
  {
   "property": "C37",
   "status": "proved",
   "theorems": [
    "C37_factors",
    "C37_VRdc",
    "C37_alpha_cw",
    "C37_VRdc_prin",
    "C37_reduction",
    "C37_strut_angle",
    "C37_round_trip",
    "C37_strut_limit",
    "C37_Asw_max"
   ],
   "note": "1/tan is cos/sin; floats are reals."
  },
  {
   "property": "C38",
   "status": "proved",
   "theorems": [
    "C38_w_max",
    "C38_k",
    "C38_kc",
    "C38_kc_flanges",
    "C38_As_min",
    "C38_xi1",
    "C38_As_min_p",
    "C38_As_min_p_checks",
    "C38_hc_eff",
    "C38_As_min_2",
    "C38_As_min_2_depth_refuted",
    "C38_ratios",
    "C38_words",
    "C38_strain",
    "C38_strain_checks",
    "C38_phi_eq",
    "C38_phi_eq_checks",
    "C38_spacing",
    "C38_spacing_checks",
    "C38_far",
    "C38_theta",
    "C38_theta_refuted",
    "C38_wk",
    "C38_restraint"
   ],
   "note": "Total over all arguments, including rejected ones. Two documented checks that the code lacks are stated as refutations (C38_theta_refuted: angles outside [0, pi/2] are accepted and give negative spacings; C38_As_min_2_depth_refuted: d > h gives negative diameters, d = h divides by zero). scipy griddata is a parameter with the contract interpolates_gaps."
  },
  {
   "property": "C39",
   "status": "proved",
   "theorems": [
    "C39_strain_and_strength",
    "C39_v_rdc",
    "C39_v_rd_max",
    "C39_v_rd_plain",
    "C39_v_rd_12",
    "C39_v_rd_3",
    "C39_v_rd_checks",
    "C39_gamma_s_refuted",
    "C39_level3_limit_refuted",
    "C39_sign_refuted",
    "C39_v_rd_ct"
   ],
   "note": "Three expectations that the code does not meet are stated as refutations: C39_gamma_s_refuted, C39_level3_limit_refuted, C39_sign_refuted."
  },
  {
   "property": "C40",
   "status": "proved",
   "theorems": [
    "C40_t_rd_max",
    "C40_t_rd",
    "C40_wall_shear",
    "C40_strip",
    "C40_m_ed",
    "C40_rotation",
    "C40_k_psi",
    "C40_punching",
    "C40_stirrups",
    "C40_interface",
    "C40_bond_words",
    "C40_s_3",
    "C40_splitting",
    "C40_split_strength"
   ],
   "note": "All functions of the four modules; no bond stress-slip curve function exists in the code (only its parameters), so the statement covers the parameters and the slip at splitting."
  },
  {
   "property": "C41",
   "status": "proved",
   "theorems": [
    "C41_design_values",
    "C41_reinforcing_steel",
    "C41_reinforcing_steel_checks",
    "C41_reinforcing_steel_refuted",
    "C41_prestressing_steel",
    "C41_prestressing_steel_checks",
    "C41_prestressing_steel_refuted",
    "C41_prestressing_table",
    "C41_prestressing_table_Y1560_refuted",
    "C41_kh",
    "C41_As_min_y",
    "C41_k_1_r",
    "C41_strain",
    "C41_kfl",
    "C41_spacing",
    "C41_crack_width",
    "C41_crack_width_refuted",
    "C41_Ec_eff",
    "C41_deflection",
    "C41_deflection_refuted"
   ],
   "note": "EC2:2023 section 9 and the steel part of section 5 are modelled completely. Accepted arguments that break the expected behaviour are stated in the _refuted theorems (k below 1, ultimate strain at yield, Y1560, bars in the compression zone, no load or no reinforcement)."
  },
  {
   "property": "C42",
   "status": "proved",
   "theorems": [
    "C42_checks",
    "C42_values",
    "C42_stiffness",
    "C42_sign",
    "C42_fcd",
    "C42_zero_gamma_refuted",
    "C42_existing_refuted",
    "C42_no_bilinear_2023",
    "C42_fcd_2023",
    "C42_parabola",
    "C42_bilinear",
    "C42_sargin",
    "C42_popovics",
    "C42_elastic",
    "C42_from_material",
    "C42_defaults",
    "C42_sargin_defaults"
   ],
   "note": "Wording follows the code exactly; surprising behaviour is stated in C42_zero_gamma_refuted (gamma_c=0 becomes 1.5 in EC2:2004/MC2010), C42_existing_refuted (existing=True is ignored although documented to raise NotImplementedError)."
  },
  {
   "property": "C43",
   "status": "proved",
   "theorems": [
    "C43_plastic_axis",
    "C43_reads",
    "C43_theta_refuted",
    "C43_constants",
    "C43_plastic_modulus",
    "C43_failed_read_refuted",
    "C43_failed_turned_read_refuted"
   ],
   "note": "shapely split is a parameter with the contract `slices` (areas of the pieces by side; area above monotone and Lipschitz in the height); np.linalg.eig has the contract eigen_ok; both satisfied by a rectangle in C43_example."
  },
  {
   "property": "C44",
   "status": "proved",
   "theorems": [
    "C44_segments_are_ring_edges",
    "C44_marker_inside_convex_hole",
    "C44_marker_inside_hole_refuted"
   ],
   "note": "Any number of holes; convex holes of either orientation; deviation is a theorem (C44_marker_inside_hole_refuted)."
  },
  {
   "property": "C45",
   "status": "proved",
   "theorems": [
    "C45_line_through_point",
    "C45_line_spans",
    "C45_vertical_line_refuted",
    "C45_split_sides"
   ],
   "note": "Shapely's split and centroid are parameters."
  },
  {
   "property": "C46",
   "status": "proved",
   "theorems": [
    "C46_circle",
    "C46_circle_rejects",
    "C46_rectangle",
    "C46_rectangle_rejects"
   ],
   "note": "Rectangle and circle; GEOS' point buffer is modelled as the regular polygon it produces."
  },
  {
   "property": "C47",
   "status": "proved",
   "theorems": [
    "C47_equilibrium",
    "C47_ultimate_state",
    "C47_balanced",
    "C47_solves",
    "C47_refused"
   ],
   "note": "Fibre sections, any history (equilibrium, balance, existence); any integrator (ultimate state, refusal)."
  },
  {
   "property": "C48",
   "status": "proved",
   "theorems": [
    "C48_points",
    "C48_balanced",
    "C48_solves",
    "C48_automatic"
   ],
   "note": "Fibre sections, any history; automatic curvatures for any integrator."
  },
  {
   "property": "C49",
   "status": "proved",
   "theorems": [
    "C49_points",
    "C49_closed"
   ],
   "note": "Fibre sections, any history."
  },
  {
   "property": "C50",
   "status": "proved",
   "theorems": [
    "C50_not_reinforced",
    "C50_concrete_law",
    "C50_cracked_section",
    "C50_mesh_size_ignored_refuted",
    "C50_composite_refuted"
   ],
   "note": "Marin integrator (the default of the function); fibre integrator only for the mesh-size finding"
  },
  {
   "property": "C51",
   "status": "proved",
   "theorems": [
    "C51_new_material",
    "C51_elastic_copy",
    "C51_elastic_refused",
    "C51_gross",
    "C51_flag_refuted"
   ],
   "note": ""
  },
  {
   "property": "C52",
   "status": "proved",
   "theorems": [
    "C52_lookup",
    "C52_history",
    "C52_fits",
    "C52_names",
    "C52_masses"
   ],
   "note": "lookup, histories, and the contents of the tables"
  },
  {
   "property": "C53",
   "status": "proved",
   "theorems": [
    "C53_outline",
    "C53_parallel",
    "C53_rolled",
    "C53_catalogue",
    "C53_masses"
   ],
   "note": "shapely unary_union and offset_curve are parameters with contracts (exact_union, exact_offset); set_precision is the identity over the reals"
  },
  {
   "property": "C54",
   "status": "proved",
   "theorems": [
    "C54_strength_forces",
    "C54_strength_balanced",
    "C54_strength_solves",
    "C54_curve_points",
    "C54_curve_balanced",
    "C54_curve_solves",
    "C54_limits",
    "C54_monotone",
    "C54_extremes",
    "C54_nm_forces",
    "C54_nmm_forces",
    "C54_nm_solves",
    "C54_mm_points",
    "C54_strength_area",
    "C54_curve_area",
    "C54_nm_area",
    "C54_nmm_area"
   ],
   "note": "Moment-curvature for requested non-zero curvatures (at curvature zero the integrator is covered by C21 and C54_limits for the limit loads); the conditions of the solvers are those of C22/C23."
  },
  {
   "property": "C55",
   "status": "proved",
   "theorems": [
    "C55_mesh_agreement",
    "C55_two_meshes",
    "C55_refinement",
    "C55_monotone",
    "C55_extremes",
    "C55_curves"
   ],
   "note": "forces only (N, My, Mz); the stiffness matrix of the fibre mesh is covered by C20"
  },
  {
   "property": "C56",
   "status": "proved",
   "theorems": [
    "C56_marin_frame",
    "C56_marin_field",
    "C56_fiber_frame",
    "C56_fiber_field",
    "C56_fiber_strain",
    "C56_laws_steady",
    "C56_limits_refuted"
   ],
   "note": "Strength and curve for any material and shape (Marin) or a mesh that turns (fibre); forces, stiffness, N-M domain and strain profile for laws constant under uniform strain; C56_limits_refuted: the axial limits depend on the orientation"
  },
  {
   "property": "C57",
   "status": "proved",
   "theorems": [
    "C57_elastic",
    "C57_elasticplastic",
    "C57_parabolarectangle",
    "C57_bilinear",
    "C57_userdefined",
    "C57_userdefined_odd",
    "C57_parabolarectangle_general",
    "C57_popovics",
    "C57_sargin",
    "C57_parallel",
    "C57_section",
    "C57_polygon_error"
   ],
   "note": "Represented curve per law, parallel combination, then forces and stiffness of the exact integrator for any mix of laws; polygon error bound for smooth laws."
  },
  {
   "property": "C58",
   "status": "proved",
   "theorems": [
    "C58_symmetric_pairs",
    "C58_marin",
    "C58_marin_mm",
    "C58_marin_mirror",
    "C58_symmetric",
    "C58_fiber"
   ],
   "note": "Both integrators; sections corresponding under translation, mirroring and redrawing. calculate_moment_curvature and calculate_strain_profile with the origin kept."
  },
  {
   "property": "C59",
   "status": "proved",
   "theorems": [
    "C59_marin",
    "C59_histories",
    "C59_laws_repeat"
   ],
   "note": "Marin integrator; the fibre integrator meshes the pieces separately and is not covered"
  },
  {
   "property": "C60",
   "status": "proved",
   "theorems": [
    "C60_forces",
    "C60_integrators",
    "C60_strength",
    "C60_nm",
    "C60_nmm",
    "C60_curve",
    "C60_tenths",
    "C60_tenths_steep",
    "C60_sargin",
    "C60_parabola",
    "C60_popovics",
    "C60_batched"
   ],
   "note": "Forces with the polygon of a curved law are within d times the area of those with the true curve; d in numbers for Sargin, parabola and Popovics"
  },
  {
   "property": "C61",
   "status": "proved",
   "theorems": [
    "C61_failure",
    "C61_fiber",
    "C61_marin",
    "C61_one_material",
    "C61_reinforced"
   ],
   "note": "note"
  },
  {
   "property": "C62",
   "status": "proved",
   "theorems": [
    "C62_marin_sum",
    "C62_fiber_sum",
    "C62_marin_scale",
    "C62_fiber_scale"
   ],
   "note": "note"
  },
  {
   "property": "C63",
   "status": "proved",
   "theorems": [
    "C63_batched",
    "C63_bar_fiber",
    "C63_bar_marin",
    "C63_bonded_tendon_fiber",
    "C63_bonded_tendon_marin",
    "C63_unbonded_tendon_fiber",
    "C63_unbonded_tendon_marin",
    "C63_common_strain",
    "C63_elastic_field"
   ],
   "note": "Tendons in surfaces with ranged laws and the exact integrator are excluded: C12_marin_ranges_not_shifted_refuted."
  },
  {
   "property": "C64",
   "status": "proved",
   "theorems": [
    "C64_fiber_work",
    "C64_marin_work",
    "C64_apart",
    "C64_marin_unique",
    "C64_fiber_unique",
    "C64_axial",
    "C64_curves",
    "C64_axial_error"
   ],
   "note": "Curves with plateaus (m = 0) get the inequality but not uniqueness."
  },
  {
   "property": "C65",
   "status": "proved",
   "theorems": [
    "C65_half_turn",
    "C65_centre",
    "C65_laws",
    "C65_marin",
    "C65_fiber",
    "C65_fiber_strain"
   ],
   "note": "Tendons and concrete laws are outside this property: their curves are not symmetric."
  },
  {
   "property": "C66",
   "status": "proved",
   "theorems": [
    "C66_isclose",
    "C66_laws",
    "C66_small",
    "C66_default",
    "C66_symmetric_refuted",
    "C66_other_class_refuted",
    "C66_report",
    "C66_report_lines",
    "C66_labels_refuted"
   ],
   "note": "Refuted clauses: symmetry with the same tolerances, objects of another class, distinct labels."
  },
  {
   "property": "C67",
   "status": "proved",
   "theorems": [
    "C67_ids_differ",
    "C67_ids_count",
    "C67_ids_shared_refuted",
    "C67_names",
    "C67_gross_once",
    "C67_gross_renewed_refuted",
    "C67_gross_new_geometry"
   ],
   "note": "Refuted clauses: ids shared between classes, renewal of stored gross properties."
  }
 ]
}