{
 "claims": [
  {
   "property": "C01",
   "status": "proved",
   "theorems": [
    "C01_packed_bits",
    "C01_lossless"
   ],
   "note": ""
  },
  {
   "property": "C02",
   "status": "proved",
   "theorems": [
    "C02_pack_accepts_exactly_bool",
    "C02_history"
   ],
   "note": ""
  },
  {
   "property": "C03",
   "status": "proved",
   "theorems": [
    "C03_image_power_is_output_power"
   ],
   "note": ""
  },
  {
   "property": "C04",
   "status": "proved",
   "theorems": [
    "C04_padding_invariant"
   ],
   "note": ""
  },
  {
   "property": "C05",
   "status": "proved",
   "theorems": [
    "C05_grey_state_passive",
    "C05_binary_state_power",
    "C05_all_on_identity",
    "C05_all_off_dark"
   ],
   "note": ""
  },
  {
   "property": "C06",
   "status": "proved",
   "theorems": [
    "C06_lcos_lossless"
   ],
   "note": ""
  },
  {
   "property": "C07",
   "status": "proved",
   "theorems": [
    "C07_linear",
    "C07_power_scales"
   ],
   "note": ""
  },
  {
   "property": "C08",
   "status": "proved",
   "theorems": [
    "C08_fraunhofer_even",
    "C08_fraunhofer_any",
    "C08_fraunhofer_intensity"
   ],
   "note": ""
  },
  {
   "property": "C09",
   "status": "proved",
   "theorems": [
    "C09_blanks_exactly_the_disc",
    "C09_idempotent",
    "C09_power_does_not_increase",
    "C09_first_order_survives_default_radius"
   ],
   "note": ""
  },
  {
   "property": "C10",
   "status": "proved",
   "theorems": [
    "C10_results_belong_to_last_propagation",
    "C10_block_without_result",
    "C10_powers_without_result"
   ],
   "note": ""
  },
  {
   "property": "C11",
   "status": "partial",
   "theorems": [
    "C11_refuted",
    "C11_output_and_image_survive"
   ],
   "note": "REFUTED, not proved: the property as stated is false of the code. Violated by the code as stated; the refutation gives the witness. The second theorem proves what does survive a failing call."
  },
  {
   "property": "C12",
   "status": "proved",
   "theorems": [
    "C12_fourier_grid_positions",
    "C12_pixel_to_coordinate",
    "C12_conversions_inverse",
    "C12_neighbours_and_centre",
    "C12_axis_pixel"
   ],
   "note": ""
  },
  {
   "property": "C13",
   "status": "proved",
   "theorems": [
    "C13_image_grid",
    "C13_image_grid_shape"
   ],
   "note": ""
  },
  {
   "property": "C14",
   "status": "proved",
   "theorems": [
    "C14_fourier_grid_extends",
    "C14_padded_grid_sizes",
    "C14_image_grid_refines"
   ],
   "note": ""
  },
  {
   "property": "C15",
   "status": "proved",
   "theorems": [
    "C15_ansi_total",
    "C15_ansi_inverse",
    "C15_every_pair_has_an_index",
    "C15_injective",
    "C15_wrong_beyond_range",
    "C15_negative_index",
    "C15_domain"
   ],
   "note": "IEEE binary64 via Flocq. The range 9+8j<=2^53 is what is claimed; a further theorem shows a wrong result at j=2^53-2^26."
  },
  {
   "property": "C16",
   "status": "proved",
   "theorems": [
    "C16_zernike_value",
    "C16_unit_on_the_rim",
    "C16_zero_outside"
   ],
   "note": ""
  },
  {
   "property": "C17",
   "status": "proved",
   "theorems": [
    "C17_orthonormal"
   ],
   "note": "Disc integral as an iterated Riemann integral in polar coordinates (Coquelicot is_RInt)."
  },
  {
   "property": "C18",
   "status": "partial",
   "theorems": [
    "C18_rejects_invalid_refuted",
    "C18_rejects_large_m_and_odd",
    "C18_accepted_set",
    "C18_invalid_mode_is_zero"
   ],
   "note": "REFUTED, not proved: the property as stated is false of the code. Violated by the code: m < -n is accepted (witness n=0, m=-2). The other theorems give the exact accepted set and show the accepted invalid modes vanish identically."
  },
  {
   "property": "C19",
   "status": "proved",
   "theorems": [
    "C19_closed_form",
    "C19_defocus_closed_form",
    "C19_zero_mean",
    "C19_unchanged_outside",
    "C19_linear",
    "C19_piston_removed",
    "C19_piston_ignored",
    "C19_empty_aperture_gives_nan"
   ],
   "note": "Real arithmetic; the array is all NaN exactly when the aperture is empty (last theorem)."
  },
  {
   "property": "C20",
   "status": "partial",
   "theorems": [
    "C20_projection_refuted",
    "C20_tilt_removed_refuted",
    "C20_tilt_residual",
    "C20_second_pass",
    "C20_tilt_can_grow"
   ],
   "note": "REFUTED, not proved: the property as stated is false of the code. Violated by the code: both parts refuted (1x3 grid, radius 2). The residual of a tilt and the effect of a second pass are proved exactly; a witness shows the tilt can even grow. C86 bounds both effects by a constant over the radius."
  },
  {
   "property": "C21",
   "status": "proved",
   "theorems": [
    "C21_decomposition",
    "C21_modes_unique",
    "C21_linear",
    "C21_prefix",
    "C21_zero_outside",
    "C21_empty_aperture_gives_nan"
   ],
   "note": ""
  },
  {
   "property": "C22",
   "status": "proved",
   "theorems": [
    "C22_profile_operands",
    "C22_number_operands",
    "C22_negation",
    "C22_other_operands",
    "C22_power_number",
    "C22_power_profile",
    "C22_power_integer",
    "C22_power_positive",
    "C22_power_complex"
   ],
   "note": ""
  },
  {
   "property": "C23",
   "status": "proved",
   "theorems": [
    "C23_element_type",
    "C23_no_type_error",
    "C23_always_a_value"
   ],
   "note": ""
  },
  {
   "property": "C24",
   "status": "proved",
   "theorems": [
    "C24_formulas",
    "C24_rotation_polar",
    "C24_compose",
    "C24_inverse",
    "C24_commute_arithmetic",
    "C24_commute_power",
    "C24_commute_as_complex"
   ],
   "note": ""
  },
  {
   "property": "C25",
   "status": "proved",
   "theorems": [
    "C25_history_as_built",
    "C25_assignment_succeeds",
    "C25_older_objects_unaffected",
    "C25_later_objects_unaffected",
    "C25_read_only",
    "C25_element_type_fixed",
    "C25_laguerre_assignment_ignored"
   ],
   "note": "Holds for every constructor with setters; LaguerreGaussian has none, an assignment to it is accepted and ignored (last theorem)."
  },
  {
   "property": "C26",
   "status": "proved",
   "theorems": [
    "C26_phase_factor",
    "C26_complex_argument",
    "C26_sum_is_product",
    "C26_inverse"
   ],
   "note": ""
  },
  {
   "property": "C27",
   "status": "proved",
   "theorems": [
    "C27_hermite_gaussian",
    "C27_rejects_negative_orders",
    "C27_parity"
   ],
   "note": "Coefficients from scipy.special.hermite are modelled by the exact integer recurrence."
  },
  {
   "property": "C28",
   "status": "proved",
   "theorems": [
    "C28_laguerre_gaussian",
    "C28_rejects_negative_p",
    "C28_rotation_multiplies_by_phase",
    "C28_intensity_depends_on_r",
    "C28_gaussian",
    "C28_first_order",
    "C28_centre"
   ],
   "note": "Coefficients from scipy.special.genlaguerre are modelled by the exact closed form."
  },
  {
   "property": "C29",
   "status": "proved",
   "theorems": [
    "C29_super_gaussian",
    "C29_peak",
    "C29_width",
    "C29_bounded",
    "C29_decreasing",
    "C29_gaussian"
   ],
   "note": ""
  },
  {
   "property": "C30",
   "status": "proved",
   "theorems": [
    "C30_rectangle",
    "C30_disc",
    "C30_product_is_intersection",
    "C30_square"
   ],
   "note": ""
  },
  {
   "property": "C31",
   "status": "proved",
   "theorems": [
    "C31_backend_history",
    "C31_precision_fixed_by_first_read",
    "C31_matching_width"
   ],
   "note": ""
  },
  {
   "property": "C32",
   "status": "proved",
   "theorems": [
    "C32_ideal_grating",
    "C32_negative_order_negates_phases"
   ],
   "note": ""
  },
  {
   "property": "C33",
   "status": "proved",
   "theorems": [
    "C33_simple_is_thresholded_ideal",
    "C33_half_period"
   ],
   "note": ""
  },
  {
   "property": "C34",
   "status": "proved",
   "theorems": [
    "C34_random_grating",
    "C34_duty_increases",
    "C34_duty_limit",
    "C34_first_harmonic"
   ],
   "note": ""
  },
  {
   "property": "C35",
   "status": "proved",
   "theorems": [
    "C35_amplitude_normalised",
    "C35_bright_inputs_qualify",
    "C35_target_scaling",
    "C35_input_scaling"
   ],
   "note": ""
  },
  {
   "property": "C36",
   "status": "proved",
   "theorems": [
    "C36_orders_at_the_fourier_plane",
    "C36_target_in_first_order"
   ],
   "note": ""
  },
  {
   "property": "C37",
   "status": "partial",
   "theorems": [
    "C37_dark_pixels_exactly",
    "C37_refuted",
    "C37_one_dark_pixel_suffices"
   ],
   "note": "REFUTED, not proved: the property as stated is false of the code. Violated by the code; witness: 4x2 DMD with one dark mirror. A general theorem shows when it happens; C35 covers the inputs for which it does not."
  },
  {
   "property": "C38",
   "status": "partial",
   "theorems": [
    "C38_refuted",
    "C38_zero_target",
    "C38_other_errors_change_nothing",
    "C38_grating_atomic",
    "C38_unknown_method"
   ],
   "note": "REFUTED, not proved: the property as stated is false of the code. Violated by the code only for spectra that vanish identically (ZeroDivisionError after the state was overwritten); all other errors are proved to change nothing."
  },
  {
   "property": "C39",
   "status": "proved",
   "theorems": [
    "C39_ifta_of_a_target",
    "C39_ifta_grating",
    "C39_what_a_run_gives",
    "C39_no_iterations_is_simple"
   ],
   "note": "Non-finite ideal patterns (dark mirrors) are covered by the last clause of the first theorem."
  },
  {
   "property": "C40",
   "status": "proved",
   "theorems": [
    "C40_error_never_increases",
    "C40_error_converges"
   ],
   "note": ""
  },
  {
   "property": "C41",
   "status": "partial",
   "theorems": [
    "C41_refuted"
   ],
   "note": "REFUTED, not proved: the property as stated is false of the code. Violated by the code; witness: 2x1 beam with a sign change, error 0 becomes 2 after one iteration. C40 is the case for which it holds."
  },
  {
   "property": "C42",
   "status": "proved",
   "theorems": [
    "C42_mraf_full_window_is_gs",
    "C42_mixing_zero_ignores_target",
    "C42_mixing_one_is_gs_of_the_masked_target"
   ],
   "note": ""
  },
  {
   "property": "C43",
   "status": "partial",
   "theorems": [
    "C43_refuted",
    "C43_displayed_image"
   ],
   "note": "REFUTED, not proved: the property as stated is false of the code. Violated by the code; witness: 3x1 device, spot at one edge is displayed at the other. The second theorem says what is displayed."
  },
  {
   "property": "C44",
   "status": "proved",
   "theorems": [
    "C44_phase_ranges",
    "C44_failures_change_nothing"
   ],
   "note": ""
  },
  {
   "property": "C45",
   "status": "proved",
   "theorems": [
    "C45_patch_only_touches_its_disc",
    "C45_failing_patch_changes_nothing"
   ],
   "note": ""
  },
  {
   "property": "C46",
   "status": "partial",
   "theorems": [
    "C46_refuted",
    "C46_ideal_patch"
   ],
   "note": "REFUTED, not proved: the property as stated is false of the code. Violated by the code; witness: grey level strictly between 0 and 1 stored as an on mirror. The second theorem says exactly what is stored."
  },
  {
   "property": "C47",
   "status": "proved",
   "theorems": [
    "C47_alp_guard",
    "C47_lux_guard",
    "C47_new_alp",
    "C47_new_lux"
   ],
   "note": ""
  },
  {
   "property": "C48",
   "status": "proved",
   "theorems": [
    "C48_load_single",
    "C48_load_multiple",
    "C48_load_single_failure",
    "C48_load_multiple_failure",
    "C48_bad_images_stop_display",
    "C48_initialize"
   ],
   "note": ""
  },
  {
   "property": "C49",
   "status": "partial",
   "theorems": [
    "C49_load_single_stays_slave_refuted",
    "C49_load_single_keeps_mode"
   ],
   "note": "REFUTED, not proved: the property as stated is false of the code. Violated by the code; the refutation theorem gives the witness (load_multiple then load_single). General fact proved: load_single never changes the trigger mode."
  },
  {
   "property": "C50",
   "status": "partial",
   "theorems": [
    "C50_each_load_adds_one",
    "C50_loads_accumulate",
    "C50_alp_memory_leak_refuted",
    "C50_close_frees_at_most_one",
    "C50_close_frees_pending"
   ],
   "note": "REFUTED, not proved: the property as stated is false of the code. Each load adds one sequence and frees none; for every n a history with n live sequences; close() frees at most one explicitly. What AlpDevFree itself releases is not modelled."
  },
  {
   "property": "C51",
   "status": "partial",
   "theorems": [
    "C51_closed_alp_controller_usable_refuted",
    "C51_alp_flag_never_cleared",
    "C51_lux_flag_never_cleared"
   ],
   "note": "REFUTED, not proved: the property as stated is false of the code. Violated by the code; witness: initialize, close, load_single. General fact proved for both controllers: once set the flag survives every history."
  },
  {
   "property": "C52",
   "status": "proved",
   "theorems": [
    "C52_load_multiple",
    "C52_load_single",
    "C52_load_single_failure",
    "C52_load_multiple_failure",
    "C52_initialize"
   ],
   "note": ""
  },
  {
   "property": "C53",
   "status": "proved",
   "theorems": [
    "C53_display_cyclic",
    "C53_never_shows_unloaded_slot",
    "C53_shows_loaded_images"
   ],
   "note": ""
  },
  {
   "property": "C54",
   "status": "proved",
   "theorems": [
    "C54_cache_transparent",
    "C54_grid_never_changes"
   ],
   "note": ""
  },
  {
   "property": "C55",
   "status": "partial",
   "theorems": [
    "C55_samples_on_the_grid",
    "C55_fails_on_a_failing_sample",
    "C55_arrays_converted",
    "C55_constants_are_scalars",
    "C55_refuted"
   ],
   "note": "REFUTED, not proved: the property as stated is false of the code. Violated by the code; witness: a ConstantProfile on a 5x4 device gives a rank-0 tensor. The other theorems say exactly what is returned in every case."
  },
  {
   "property": "C56",
   "status": "proved",
   "theorems": [
    "C56_slm_simulation_constructor",
    "C56_dmd_simulation_constructor",
    "C56_only_type_errors",
    "C56_field_sizes"
   ],
   "note": ""
  },
  {
   "property": "C57",
   "status": "proved",
   "theorems": [
    "C57_state_keeps_the_device_shape"
   ],
   "note": ""
  },
  {
   "property": "C58",
   "status": "proved",
   "theorems": [
    "C58_gs_ignores_scale",
    "C58_mraf_ignores_common_scale"
   ],
   "note": ""
  },
  {
   "property": "C59",
   "status": "partial",
   "theorems": [
    "C59_zero_mean_with_defocus_refuted",
    "C59_mean_left_by_defocus_removal"
   ],
   "note": "REFUTED, not proved: the property as stated is false of the code. Violated by the code; witness on a 1x3 grid. What removing defocus leaves of the mean is given exactly (C59_mean_left_by_defocus_removal), and C86 bounds it by a constant over the radius."
  },
  {
   "property": "C60",
   "status": "proved",
   "theorems": [
    "C60_padding_keeps_field"
   ],
   "note": ""
  },
  {
   "property": "C61",
   "status": "proved",
   "theorems": [
    "C61_tilt_moves_image"
   ],
   "note": ""
  },
  {
   "property": "C62",
   "status": "proved",
   "theorems": [
    "C62_real_field_symmetric",
    "C62_dmd_orders_symmetric"
   ],
   "note": ""
  },
  {
   "property": "C63",
   "status": "proved",
   "theorems": [
    "C63_axis_and_bound",
    "C63_axis_sampled"
   ],
   "note": ""
  },
  {
   "property": "C64",
   "status": "proved",
   "theorems": [
    "C64_bounded",
    "C64_attained"
   ],
   "note": ""
  },
  {
   "property": "C65",
   "status": "proved",
   "theorems": [
    "C65_rotate_turns_clockwise",
    "C65_rotation_mixes_partners",
    "C65_rotation_keeps_m0",
    "C65_parity"
   ],
   "note": ""
  },
  {
   "property": "C66",
   "status": "proved",
   "theorems": [
    "C66_hermite_gaussian_overlap"
   ],
   "note": ""
  },
  {
   "property": "C67",
   "status": "proved",
   "theorems": [
    "C67_laguerre_gaussian_overlap"
   ],
   "note": ""
  },
  {
   "property": "C68",
   "status": "partial",
   "theorems": [
    "C68_alp_rejects_empty",
    "C68_lux_accepts_empty_refuted",
    "C68_empty_sequence_livelock"
   ],
   "note": "REFUTED, not proved: the ALP controller rejects an empty list, the Luxbeam controller accepts it and its sequencer then never sets the mirrors nor waits for a trigger."
  },
  {
   "property": "C69",
   "status": "proved",
   "theorems": [
    "C69_own_image_is_matched"
   ],
   "note": ""
  },
  {
   "property": "C70",
   "status": "proved",
   "theorems": [
    "C70_first_order_power"
   ],
   "note": ""
  },
  {
   "property": "C71",
   "status": "proved",
   "theorems": [
    "C71_equivalent_settings",
    "C71_opposite_origins"
   ],
   "note": ""
  },
  {
   "property": "C72",
   "status": "proved",
   "theorems": [
    "C72_global_phase"
   ],
   "note": ""
  },
  {
   "property": "C73",
   "status": "proved",
   "theorems": [
    "C73_complementary_patterns"
   ],
   "note": ""
  },
  {
   "property": "C74",
   "status": "proved",
   "theorems": [
    "C74_lcos_phase_offset",
    "C74_new_panel_is_phase_zero"
   ],
   "note": ""
  },
  {
   "property": "C75",
   "status": "proved",
   "theorems": [
    "C75_translation_keeps_intensity"
   ],
   "note": ""
  },
  {
   "property": "C76",
   "status": "proved",
   "theorems": [
    "C76_random_grating_mean",
    "C76_random_hologram_mean"
   ],
   "note": ""
  },
  {
   "property": "C77",
   "status": "proved",
   "theorems": [
    "C77_only_diffraction_orders",
    "C77_blocking_removes_only_the_axis"
   ],
   "note": ""
  },
  {
   "property": "C78",
   "status": "proved",
   "theorems": [
    "C78_constant",
    "C78_hermite_gaussian",
    "C78_super_gaussian",
    "C78_rectangle",
    "C78_circle",
    "C78_zernike",
    "C78_read_back",
    "C78_refused",
    "C78_others_unchanged",
    "C78_read_only"
   ],
   "note": ""
  },
  {
   "property": "C79",
   "status": "partial",
   "theorems": [
    "C79_orders_readable_refuted",
    "C79_getters_always_raise",
    "C79_laguerre_has_no_getters"
   ],
   "note": "REFUTED, not proved: the property as stated is false of the code. The getters call .value() on a tf.constant and raise AttributeError for every Zernike object (second theorem). LaguerreGaussian has no attribute getters at all (third theorem). Assumes, as TensorFlow documents, that an eager tensor has no method value."
  },
  {
   "property": "C80",
   "status": "proved",
   "theorems": [
    "C80_thresholded_first_harmonic",
    "C80_not_proportional"
   ],
   "note": ""
  },
  {
   "property": "C81",
   "status": "proved",
   "theorems": [
    "C81_gs_run",
    "C81_mraf_run"
   ],
   "note": ""
  },
  {
   "property": "C82",
   "status": "partial",
   "theorems": [
    "C82_gs_keeps_a_perfect_hologram",
    "C82_mraf_with_equal_mixing_keeps_it",
    "C82_default_mraf_keeps_it_refuted"
   ],
   "note": "REFUTED in its last part: with the default mixing factor 0.4 one MRAF iteration spoils a hologram that displays the target exactly (witness with a 0/1 window, third theorem). GS and MRAF with mixing factor 1/2 keep it (first two theorems). Real arithmetic."
  },
  {
   "property": "C83",
   "status": "proved",
   "theorems": [
    "C83_hologram_rejects_misfits",
    "C83_grating_rejects_misfits",
    "C83_single_rows_and_columns_repeat",
    "C83_ifta_rows_repeat",
    "C83_input_rows_repeat",
    "C83_window_rows_repeat",
    "C83_ifta_refuses_real_arrays_and_profiles",
    "C83_target_of_one_row_is_a_line"
   ],
   "note": ""
  },
  {
   "property": "C84",
   "status": "partial",
   "theorems": [
    "C84_state_has_the_shape_of_the_input",
    "C84_misfits_beside_a_full_input_are_rejected",
    "C84_single_rows_and_columns_repeat",
    "C84_misfits_are_rejected_refuted"
   ],
   "note": "REFUTED, not proved: nothing compares the arrays with the panel. Input and target of one wrong size are accepted, slm_state gets that size and no full-size beam can be propagated any more (third theorem). What holds: slm_state always gets the input's shape, and beside a full-size input a misfitting target or window raises and changes nothing (first two theorems)."
  },
  {
   "property": "C85",
   "status": "partial",
   "theorems": [
    "C85_outcome_ignores_the_grating",
    "C85_zero_period_gives_blank_patterns",
    "C85_zero_period_blocks_everything",
    "C85_zero_period_is_refused_refuted"
   ],
   "note": "REFUTED, not proved: a DMD built with periodicity 0 computes holograms without an exception and reports the same efficiency as with any other period, but every mirror is off (NaN for method 'ideal'), and block_zeroth_order with its default radius blanks the whole image. IEEE semantics of division by zero and NaN as in LibModel.v."
  },
  {
   "property": "C86",
   "status": "proved",
   "theorems": [
    "C86_pixels_in_the_aperture",
    "C86_averages_converge",
    "C86_modes_nearly_orthonormal",
    "C86_coefficients_recovered",
    "C86_map_reconstructed",
    "C86_coefficients_of_polynomials",
    "C86_tilts_nearly_removed",
    "C86_second_pass_changes_little",
    "C86_mean_after_defocus_removal"
   ],
   "note": "The constants K are shown to exist, not computed (28 for the pixel count is explicit). Exact arithmetic; the ANSI indices in binary64."
  },
  {
   "property": "C87",
   "status": "proved",
   "theorems": [
    "C87_image_error_power",
    "C87_image_error_pointwise",
    "C87_wrong_mirrors",
    "C87_ideal_grating_lipschitz",
    "C87_simple_mirrors_keep_with_margin"
   ],
   "note": ""
  },
  {
   "property": "C88",
   "status": "proved",
   "theorems": [
    "C88_only_the_symmetric_part_counts",
    "C88_only_the_symmetric_part_counts_for_gratings",
    "C88_constant_symmetric_part_corrects_nothing",
    "C88_image_before_binarisation"
   ],
   "note": ""
  },
  {
   "property": "C89",
   "status": "partial",
   "theorems": [
    "C89_raising_s_raises_the_first_order_refuted",
    "C89_returned_efficiency_ignores_s",
    "C89_raising_s_switches_mirrors_on",
    "C89_first_harmonic_peaks_at_one"
   ],
   "note": "REFUTED, not proved: C89_raising_s_raises_the_first_order_refuted gives a grating whose simulated first order vanishes when s is raised from 1 to 3. Proved instead: larger s only switches mirrors on (constant symmetric part of the window), the first harmonic peaks at A s = 1, and the returned efficiency ignores s."
  },
  {
   "property": "C90",
   "status": "proved",
   "theorems": [
    "C90_simple_grating_is_nearest",
    "C90_simple_hologram_is_nearest",
    "C90_ifta_without_window_is_nearest"
   ],
   "note": ""
  },
  {
   "property": "C91",
   "status": "proved",
   "theorems": [
    "C91_gaussian_image",
    "C91_peak_on_a_DLP9500"
   ],
   "note": ""
  },
  {
   "property": "C92",
   "status": "proved",
   "theorems": [
    "C92_gaussian_power",
    "C92_unit_test"
   ],
   "note": ""
  },
  {
   "property": "C93",
   "status": "proved",
   "theorems": [
    "C93_move_target_or_grating",
    "C93_no_phase_for_even_sizes"
   ],
   "note": ""
  },
  {
   "property": "C94",
   "status": "proved",
   "theorems": [
    "C94_states_superpose",
    "C94_dimmed_state"
   ],
   "note": ""
  },
  {
   "property": "C95",
   "status": "proved",
   "theorems": [
    "C95_formats",
    "C95_amplitudes_in_range",
    "C95_grey_levels_in_range",
    "C95_simple_monotone",
    "C95_no_rounding"
   ],
   "note": "Overflow is not modelled. Of the library functions only the range of cos and tanh and asin(0) = 0 are assumed; the pieces (amplitudes, grey level of one mirror) are evaluated in floating point, the FFT that produces the spectrum is not."
  },
  {
   "property": "C96",
   "status": "proved",
   "theorems": [
    "C96_grid_after_rounding",
    "C96_padded_grid_identical",
    "C96_index_recovered",
    "C96_no_rounding"
   ],
   "note": ""
  },
  {
   "property": "C97",
   "status": "partial",
   "theorems": [
    "C97_index_round_trip_refuted"
   ],
   "note": "REFUTED, not proved: on a DLP9500 column 26 comes back as 26 + 2^-43 (C97_index_round_trip_refuted, evaluated in IEEE binary64). Proved instead: C96, the error is below 3u(N+3), so rounding to the nearest integer recovers the index."
  },
  {
   "property": "C98",
   "status": "proved",
   "theorems": [
    "C98_mask_exact",
    "C98_mask_exact_integer",
    "C98_no_rounding"
   ],
   "note": "x**2 is taken to be the correctly rounded product. Diameters whose square does not fit the mantissa are not covered."
  },
  {
   "property": "C99",
   "status": "proved",
   "theorems": [
    "C99_passive_after_rounding",
    "C99_mirror_exact",
    "C99_no_rounding"
   ],
   "note": "Overflow is not modelled. Each elementary operation is rounded once (no fused multiply-add)."
  },
  {
   "property": "C100",
   "status": "proved",
   "theorems": [
    "C100_gs_moves_with_its_target",
    "C100_mraf_moves_with_its_target"
   ],
   "note": ""
  },
  {
   "property": "C101",
   "status": "proved",
   "theorems": [
    "C101_devices_do_not_interact"
   ],
   "note": ""
  },
  {
   "property": "C102",
   "status": "partial",
   "theorems": [
    "C102_read_pattern_is_a_snapshot_refuted",
    "C102_read_pattern_follows_the_device",
    "C102_snapshot_without_patches",
    "C102_copy_is_a_snapshot",
    "C102_write_changes_one_mirror",
    "C102_write_outside"
   ],
   "note": "REFUTED, not proved: circular_patch writes into the array that was read (witness: all mirrors on, read, patch of amplitude 0). Proved instead: the array read follows the device until the device gets a new array; no other method changes it; a copy is a snapshot."
  },
  {
   "property": "C103",
   "status": "proved",
   "theorems": [
    "C103_power_conserved_after_rounding",
    "C103_single_precision",
    "C103_accurate_transform",
    "C103_no_rounding"
   ],
   "note": "The Fourier transform is any function with the stated accuracy in the Euclidean norm; that the transform of a particular library has this accuracy is not proved. Overflow is not modelled."
  },
  {
   "property": "C104",
   "status": "proved",
   "theorems": [
    "C104_wrong_beam",
    "C104_aberration_correction",
    "C104_product_of_profiles"
   ],
   "note": ""
  },
  {
   "property": "C105",
   "status": "partial",
   "theorems": [
    "C105_more_iterations_refuted",
    "C105_every_count_can_hurt"
   ],
   "note": "REFUTED, not proved: two iterations can be worse than one. Moreover for every N >= 2 (the default 200 included) there is a three-mirror grating for which N iterations end with over 100 times the window error of plain thresholding."
  },
  {
   "property": "C106",
   "status": "proved",
   "theorems": [
    "C106_one_iteration_grating",
    "C106_one_iteration_hologram",
    "C106_last_iteration",
    "C106_runs_have_patterns"
   ],
   "note": ""
  },
  {
   "property": "C107",
   "status": "proved",
   "theorems": [
    "C107_random_first_harmonic"
   ],
   "note": ""
  },
  {
   "property": "C108",
   "status": "proved",
   "theorems": [
    "C108_alp_unimplemented",
    "C108_lux_unimplemented",
    "C108_alp_display_kept",
    "C108_alp_histories",
    "C108_lux_histories"
   ],
   "note": ""
  },
  {
   "property": "C109",
   "status": "partial",
   "theorems": [
    "C109_with_closes_refuted",
    "C109_with_never_runs",
    "C109_enter_would_do"
   ],
   "note": "REFUTED, not proved: the class has __exit__ but no __enter__, so a with statement raises before its block runs and nothing is ever closed. Proved instead: that it always does so, and that a do-nothing __enter__ would make the property true."
  },
  {
   "property": "C110",
   "status": "partial",
   "theorems": [
    "C110_number_image_refuted",
    "C110_number_image",
    "C110_sizes"
   ],
   "note": "REFUTED, not proved: sample.py uses np.bool, which NumPy 1.24 to 1.26 do not have. Proved instead: under exactly those versions it raises AttributeError, under all others the image has the size the board reports. The pixels drawn by PIL are not modelled."
  },
  {
   "property": "C111",
   "status": "proved",
   "theorems": [
    "C111_fft_error",
    "C111_no_rounding",
    "C111_direct_butterfly",
    "C111_numpy_accurate",
    "C111_powers_agree"
   ],
   "note": ""
  },
  {
   "property": "C112",
   "status": "proved",
   "theorems": [
    "C112_dmd_panels",
    "C112_lcos_panel"
   ],
   "note": ""
  },
  {
   "property": "C113",
   "status": "proved",
   "theorems": [
    "C113_hermite_gaussian_image",
    "C113_bounded",
    "C113_two_lobes_on_a_DLP9500"
   ],
   "note": ""
  },
  {
   "property": "C114",
   "status": "proved",
   "theorems": [
    "C114_thresholds_rise",
    "C114_no_pixel_is_both",
    "C114_default_is_exact",
    "C114_not_always_exact",
    "C114_no_rounding"
   ],
   "note": ""
  },
  {
   "property": "C115",
   "status": "proved",
   "theorems": [
    "C115_made_of_hermite_gauss",
    "C115_laguerre_gaussian_image",
    "C115_bounded",
    "C115_vortex_on_a_DLP9500"
   ],
   "note": ""
  },
  {
   "property": "C116",
   "status": "proved",
   "theorems": [
    "C116_hermite_gaussian_power",
    "C116_powers_of_modes_add"
   ],
   "note": ""
  },
  {
   "property": "C117",
   "status": "proved",
   "theorems": [
    "C117_laguerre_gaussian_power",
    "C117_different_beams_add",
    "C117_vortex_on_a_DLP9500"
   ],
   "note": ""
  },
  {
   "property": "C118",
   "status": "proved",
   "theorems": [
    "C118_changed_in_reset_only",
    "C118_released",
    "C118_one_trigger_each",
    "C118_trigger_lost_after_failure"
   ],
   "note": ""
  },
  {
   "property": "C119",
   "status": "partial",
   "theorems": [
    "C119_refuted",
    "C119_iterations_alternate"
   ],
   "note": "REFUTED, not proved: witness of three pixels with target 2/3, 1/3, -2/3; one iteration raises the error from 0 to at least 4/117. C119_iterations_alternate says what an iteration aims at for every signed target; for targets without negative values the claim is C40."
  },
  {
   "property": "C120",
   "status": "partial",
   "theorems": [
    "C120_ifta_better_refuted",
    "C120_random_beats_every_count"
   ],
   "note": "REFUTED, not proved: for every N >= 2 (the default 200 included) there is a three-mirror grating for which every draw of the random numbers between 1 % and 98 % leaves less than a hundredth of the window error of IFTA. With a constant window and a beam of one phase, IFTA is never worse than any pattern: C90."
  },
  {
   "property": "C121",
   "status": "proved",
   "theorems": [
    "C121_image_cells",
    "C121_fourier_cells",
    "C121_area_fails_only_without_pixels",
    "C121_image_plane_size_fixed"
   ],
   "note": ""
  },
  {
   "property": "C122",
   "status": "proved",
   "theorems": [
    "C122_only_the_filtered_spectrum_matters",
    "C122_window_filters_the_target",
    "C122_windows_multiply",
    "C122_constant_window",
    "C122_window_is_not_on_the_input"
   ],
   "note": ""
  },
  {
   "property": "C123",
   "status": "proved",
   "theorems": [
    "C123_grey_levels_and_mirrors",
    "C123_DLP9500",
    "C123_machines"
   ],
   "note": ""
  },
  {
   "property": "C124",
   "status": "proved",
   "theorems": [
    "C124_duty_after_rounding",
    "C124_DLP9500",
    "C124_machines"
   ],
   "note": ""
  },
  {
   "property": "C125",
   "status": "proved",
   "theorems": [
    "C125_conjugate",
    "C125_conjugate_mraf",
    "C125_reversed",
    "C125_reversed_mraf",
    "C125_reflected_target",
    "C125_spot"
   ],
   "note": ""
  },
  {
   "property": "C126",
   "status": "proved",
   "theorems": [
    "C126_progress",
    "C126_stalled_runs_stay"
   ],
   "note": ""
  },
  {
   "property": "C127",
   "status": "proved",
   "theorems": [
    "C127_lossless_after_rounding",
    "C127_single_precision",
    "C127_stored_phases",
    "C127_no_rounding"
   ],
   "note": ""
  },
  {
   "property": "C128",
   "status": "proved",
   "theorems": [
    "C128_mixing_rescales_the_target",
    "C128_window_error_never_increases",
    "C128_progress",
    "C128_plain_error_can_grow"
   ],
   "note": ""
  },
  {
   "property": "C129",
   "status": "proved",
   "theorems": [
    "C129_superposition",
    "C129_equal_beams"
   ],
   "note": ""
  },
  {
   "property": "C130",
   "status": "proved",
   "theorems": [
    "C130_last_patch_wins",
    "C130_topmost_exists",
    "C130_any_order",
    "C130_hidden_patch",
    "C130_repeated_patch"
   ],
   "note": ""
  },
  {
   "property": "C131",
   "status": "proved",
   "theorems": [
    "C131_gerchberg_saxton",
    "C131_mraf"
   ],
   "note": ""
  },
  {
   "property": "C132",
   "status": "partial",
   "theorems": [
    "C132_refuted",
    "C132_blank_hologram",
    "C132_panels",
    "C132_underflow",
    "C132_no_rounding"
   ],
   "note": "REFUTED, not proved: C132_refuted shows the blank hologram for every waist up to 1 mm on a DLP9500 (C132_blank_hologram for any device), beside the positive efficiency of the exact beam. The FFT of the target is taken exactly and the exponential is any function that underflows below -K, shown for the correctly rounded one with K = 110."
  },
  {
   "property": "C133",
   "status": "proved",
   "theorems": [
    "C133_one_bad_mirror",
    "C133_dark_pixel",
    "C133_blocking",
    "C133_next_run",
    "C133_finite_states",
    "C133_new_simulation",
    "C133_finite_results"
   ],
   "note": ""
  },
  {
   "property": "C134",
   "status": "proved",
   "theorems": [
    "C134_rounded_hologram",
    "C134_dlp9500",
    "C134_numpy_transform",
    "C134_no_rounding",
    "C134_polar"
   ],
   "note": ""
  },
  {
   "property": "C135",
   "status": "proved",
   "theorems": [
    "C135_simulation",
    "C135_grey_levels",
    "C135_lcos",
    "C135_lcos_single",
    "C135_dlp9500",
    "C135_switched_mirrors"
   ],
   "note": ""
  },
  {
   "property": "C136",
   "status": "proved",
   "theorems": [
    "C136_gerchberg_saxton",
    "C136_mraf",
    "C136_gerchberg_saxton_single",
    "C136_mraf_single",
    "C136_no_rounding"
   ],
   "note": ""
  },
  {
   "property": "C137",
   "status": "proved",
   "theorems": [
    "C137_sample",
    "C137_stability",
    "C137_dlp9500",
    "C137_corner"
   ],
   "note": ""
  },
  {
   "property": "C138",
   "status": "proved",
   "theorems": [
    "C138_image_grid_after_rounding",
    "C138_padded_grid_after_rounding",
    "C138_single",
    "C138_no_rounding"
   ],
   "note": ""
  },
  {
   "property": "C139",
   "status": "proved",
   "theorems": [
    "C139_rectangle",
    "C139_circle",
    "C139_pixel_window_single",
    "C139_nested",
    "C139_no_rounding"
   ],
   "note": ""
  },
  {
   "property": "C140",
   "status": "proved",
   "theorems": [
    "C140_two_axes",
    "C140_stack",
    "C140_slices",
    "C140_raises"
   ],
   "note": ""
  },
  {
   "property": "C141",
   "status": "proved",
   "theorems": [
    "C141_pack",
    "C141_bytes",
    "C141_simulation"
   ],
   "note": ""
  },
  {
   "property": "C142",
   "status": "proved",
   "theorems": [
    "C142_two_axes",
    "C142_gs",
    "C142_mraf",
    "C142_raises"
   ],
   "note": ""
  },
  {
   "property": "C143",
   "status": "partial",
   "theorems": [
    "C143_in_order_refuted"
   ],
   "note": "REFUTED, not proved: C143_in_order_refuted has two targets (one bright pixel each) on a 1 x 2 device whose holograms come exchanged. Where each hologram is in general: C142."
  },
  {
   "property": "C144",
   "status": "proved",
   "theorems": [
    "C144_two_axes",
    "C144_stack",
    "C144_raises"
   ],
   "note": ""
  },
  {
   "property": "C145",
   "status": "proved",
   "theorems": [
    "C145_image_grid",
    "C145_same_grids",
    "C145_fourier_grid",
    "C145_crop",
    "C145_no_propagation",
    "C145_never_a_result"
   ],
   "note": ""
  },
  {
   "property": "C146",
   "status": "proved",
   "theorems": [
    "C146_machines",
    "C146_grids",
    "C146_image_grid",
    "C146_gratings",
    "C146_profiles",
    "C146_simulation",
    "C146_hologram",
    "C146_dlp9500"
   ],
   "note": ""
  },
  {
   "property": "C147",
   "status": "partial",
   "theorems": [
    "C147_refuted",
    "C147_overflow"
   ],
   "note": "REFUTED, not proved: C147_refuted shows the blank hologram of a spot for every waist from 1.21 mm to 1.25 mm on a DLP9500 in single precision, beside the positive samples of the beam and the positive efficiency of the exact one. C147_overflow is the same for any spectrum at least half as bright at the corner mirror as the beam's centre."
  },
  {
   "property": "C148",
   "status": "proved",
   "theorems": [
    "C148_dmd_forgets",
    "C148_dmd_outcome",
    "C148_patch_remembers",
    "C148_lcos_outcomes",
    "C148_lcos_last",
    "C148_lcos_failed",
    "C148_reset_state",
    "C148_reset_transparent"
   ],
   "note": ""
  },
  {
   "property": "C149",
   "status": "proved",
   "theorems": [
    "C149_set_dmd_grating_state",
    "C149_circular_patch",
    "C149_calculate_dmd_state",
    "C149_calculate_hologram",
    "C149_by_name",
    "C149_order",
    "C149_unused",
    "C149_too_many",
    "C149_given_twice",
    "C149_reserved",
    "C149_defaults"
   ],
   "note": ""
  },
  {
   "property": "C150",
   "status": "partial",
   "theorems": [
    "C150_unknown_option_ignored",
    "C150_refuted"
   ],
   "note": "REFUTED, not proved: unknown options are ignored in silence (C150_unknown_option_ignored for all names and values, C150_refuted gives a call)."
  },
  {
   "property": "C151",
   "status": "proved",
   "theorems": [
    "C151_profiles",
    "C151_grids",
    "C151_coordinates",
    "C151_set_grating",
    "C151_circular_patch",
    "C151_dmd_state",
    "C151_origin",
    "C151_hologram",
    "C151_propagate",
    "C151_block",
    "C151_powers",
    "C151_units",
    "C151_focal_length",
    "C151_product",
    "C151_same_arguments",
    "C151_lcos_units"
   ],
   "note": ""
  },
  {
   "property": "C152",
   "status": "proved",
   "theorems": [
    "C152_two_axes",
    "C152_images",
    "C152_accepted",
    "C152_uneven",
    "C152_patch_of_stack",
    "C152_patch_on_stack",
    "C152_patch_counts"
   ],
   "note": ""
  },
  {
   "property": "C153",
   "status": "partial",
   "theorems": [
    "C153_patch_stays_inside_refuted",
    "C153_square_panel"
   ],
   "note": "REFUTED, not proved: C153_patch_stays_inside_refuted; the witness C153_square_panel is a 2 x 2 panel showing two patterns, where a dark patch around the upper two mirrors turns off the whole first pattern and leaves the second one as it was. Panels that are not square raise instead (C152_patch_on_stack)."
  },
  {
   "property": "C154",
   "status": "proved",
   "theorems": [
    "C154_grids",
    "C154_gratings",
    "C154_dmd_holograms",
    "C154_origin",
    "C154_lcos_holograms",
    "C154_simulations",
    "C154_reflection",
    "C154_symmetric"
   ],
   "note": ""
  },
  {
   "property": "C155",
   "status": "proved",
   "theorems": [
    "C155_target_or_window",
    "C155_beam",
    "C155_unused_mirrors",
    "C155_ifta",
    "C155_phases",
    "C155_no_iterations",
    "C155_finite_dmd",
    "C155_finite_lcos"
   ],
   "note": ""
  },
  {
   "property": "C156",
   "status": "proved",
   "theorems": [
    "C156_outside_removal",
    "C156_outside_decomposition",
    "C156_inside_removal",
    "C156_inside_decomposition"
   ],
   "note": ""
  },
  {
   "property": "C157",
   "status": "proved",
   "theorems": [
    "C157_count",
    "C157_step",
    "C157_gratings",
    "C157_holograms"
   ],
   "note": ""
  },
  {
   "property": "C158",
   "status": "proved",
   "theorems": [
    "C158_which_patterns",
    "C158_alp_single",
    "C158_alp_multiple",
    "C158_lux_single",
    "C158_lux_multiple",
    "C158_failed_reinitialise",
    "C158_alp_image",
    "C158_lux_image"
   ],
   "note": ""
  },
  {
   "property": "C159",
   "status": "proved",
   "theorems": [
    "C159_one_bad_sample",
    "C159_next_run",
    "C159_finite_beams"
   ],
   "note": ""
  },
  {
   "property": "C160",
   "status": "proved",
   "theorems": [
    "C160_aperture",
    "C160_safe_radius",
    "C160_removal",
    "C160_piston",
    "C160_double",
    "C160_decomposition",
    "C160_no_rounding"
   ],
   "note": ""
  },
  {
   "property": "C161",
   "status": "proved",
   "theorems": [
    "C161_modes",
    "C161_bound",
    "C161_norm",
    "C161_trivial_modes",
    "C161_removal_double",
    "C161_decomposition",
    "C161_three_terms"
   ],
   "note": ""
  },
  {
   "property": "C162",
   "status": "proved",
   "theorems": [
    "C162_value",
    "C162_double",
    "C162_no_rounding"
   ],
   "note": ""
  },
  {
   "property": "C163",
   "status": "proved",
   "theorems": [
    "C163_value",
    "C163_double",
    "C163_pointwise",
    "C163_plane_double",
    "C163_small_powers",
    "C163_small_double",
    "C163_everywhere_double",
    "C163_single",
    "C163_everywhere_single",
    "C163_no_rounding"
   ],
   "note": ""
  },
  {
   "property": "C164",
   "status": "proved",
   "theorems": [
    "C164_value",
    "C164_double",
    "C164_no_rounding"
   ],
   "note": ""
  },
  {
   "property": "C165",
   "status": "proved",
   "theorems": [
    "C165_call",
    "C165_complex",
    "C165_lipschitz",
    "C165_gaussian",
    "C165_moved_gaussian",
    "C165_no_rounding"
   ],
   "note": ""
  },
  {
   "property": "C166",
   "status": "proved",
   "theorems": [
    "C166_simple",
    "C166_ideal",
    "C166_random",
    "C166_ifta",
    "C166_patch_simple",
    "C166_patch_ideal",
    "C166_finite",
    "C166_patch_finite"
   ],
   "note": ""
  },
  {
   "property": "C167",
   "status": "proved",
   "theorems": [
    "C167_grating",
    "C167_patch",
    "C167_outcome",
    "C167_ifta",
    "C167_complete"
   ],
   "note": ""
  }
 ]
}