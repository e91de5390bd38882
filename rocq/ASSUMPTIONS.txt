Output of Print Assumptions for the 538 theorems of MANIFEST.json, grouped.

== Closed under the global context
  C101_bad_line C101_last_words C101_too_short C102_load_error C102_png C102_tif C102_tif_channels
  C103_after_failed_save C103_any_layout C103_cut C103_missing_name C103_not_an_object
  C103_saved_file_cut C103_text_cut_refuted C104_apart C105_directory C105_missing C105_read_only
  C106_no_extension C106_unsupported C119_projections C119_slice_projections C122_alone
  C122_any_moment C122_apart C122_history C122_independent C122_json_crash C122_moments
  C122_nothing_lost C122_old_lost_refuted C122_race_refuted C122_text_crash_refuted C13_empty
  C16_symmetry C17_dots_disjoint C19_zero_size C21_forms C21_negative C21_shape C22_channels
  C22_gray C22_no_channels C23_cv2_maps C23_video_maps C24_first_read_fails C24_frames_shown
  C24_never_returns C24_other_kind C24_stream C25_counts C26_few_lines C31_few_points
  C31_same_for_both_mappings C32_transpose C34_four_only C34_xy_order C35_backward C35_counts
  C36_counts C36_few_lines C36_missing_extremal C38_transposed C44_errors C46_grouping C46_residual
  C55_formula C57_in_range C58_offset_subset C58_ordered_sublist C60_searched C60_searched_range
  C60_selected C61_out_of_range C63_no_overwrite C63_plot_without_extension_refuted C63_succeeds
  C64_collision C64_extension C64_no_name C65_returned_path C65_text_round_trip C65_written
  C66_json_round_trip C66_returned_path C67_bad_center C67_bad_facts C68_clean C68_raw C68_unescape
  C69_folder C69_image_without_extension_fails C70_find_key C70_listing C70_object
  C70_object_no_file C71_first_group C71_key_given C71_no_file C71_no_group C72_integer_index
  C72_ranges C72_rejected C73_hdf_round_trip C73_returned_path C74_bad_option_key C74_stream
  C75_uint8 C76_channels_last C76_low_image C76_plain C77_find_file C78_pickle_round_trip C79_stream
  C90_small

== ClassicalDedekindReals.sig_forall_dec
  C124_number C25_adds_center C56_num_dots

== ClassicalDedekindReals.sig_forall_dec, FunctionalExtensionality.functional_extensionality_dep
  C107_small C111_positive C111_weak C114_small C118_each_line C132_rising C134_target
  C138_determined C26_first_change C89_distance_bounds C95_border_line_missed C95_few_lines

== ClassicalDedekindReals.sig_forall_dec, ClassicalDedekindReals.sig_not_dec, FunctionalExtensionality.functional_extensionality_dep
  C01_radial_geometry C111_order C111_rays C113_backward C120_backward C120_backward_from_forward
  C120_everywhere C120_forward C120_near C120_rms C121_centre C121_coefficients C121_grids
  C121_perspective_effect C123_bailey_centre C123_coarse_centre C123_tie_refuted C129_bailey
  C129_bailey_swap C129_coarse C129_vanishing C129_vanishing_swap C12_line_dist_meaning C134_bailey
  C134_coarse C134_lens C134_odd_refuted C134_photo C135_bailey C135_coarse C135_jump_refuted
  C136_positions C136_steady C137_backward C137_calibration C137_corrected C137_forward
  C137_tie_refuted C138_coefficients C138_grid C25_restores C26_crossing C26_few_lines_error C27_exact
  C27_positive C28_minimises C28_total C28_window C29_progression C29_unchanged C30_identity
  C31_constant C31_default_points C31_inverts C31_roundtrip C32_from_points C32_on_both_lines
  C32_straight C33_total C35_unique C37_crossing C37_equal_leading C37_first_method_total
  C38_on_parabolas C38_total C58_residuals C85_barrel C85_crossing C85_pincushion
  C87_ideal_unchanged C87_on_regular_parabolas C94_accepted C97_backward_exact
  C97_backward_from_forward C97_backward_least_squares C97_forward_exact C97_forward_least_squares
  C98_coarse_shift_refuted C98_scale C98_scale_correction C98_shift C98_swap

== ClassicalDedekindReals.sig_forall_dec, ClassicalDedekindReals.sig_not_dec, Classical_Prop.classic, FunctionalExtensionality.functional_extensionality_dep
  C01_forward_points C01_identity C01_rotate C01_translate C02_dtype C02_int_loss
  C03_backward_points C04_bilinear C04_constant C04_positions C04_range C04_sampling
  C05_backward_identity C05_color_identity C05_forward_identity C05_gray_identity C06_linear
  C07_forward_image C07_forward_image_rounded C08_slice C08_slice_double C09_chunk_rows
  C09_monotone_needed C100_calibration C100_centres C100_touching C104_columns C104_rows C107_pixels
  C107_points C107_positions C108_chain C108_selection C108_size_distance C108_slopes C109_bilinear
  C109_forward C109_forward_refuted C109_image C109_mirror C109_perspective_image
  C109_perspective_points C109_points C109_points_backward C10_accepted_ranges C110_calibrated
  C110_perspective C110_scene C110_smooth C111_chunk C111_fold C111_image C111_points C112_columns
  C112_residual_columns C112_residual_rows C112_rows C112_workflow C113_forward C113_four C113_image
  C113_points C114_pixels C114_points C114_positions C114_scene C115_defect C115_monotone C115_noise
  C115_perspective C116_kept C116_middle_refuted C118_horizontal_lines C118_profile
  C118_vertical_lines C119_cut C119_cut_refuted C119_one_slice C119_order_double C119_order_exact
  C119_order_weak C119_stacked C11_tall_refuted C123_mirrored C124_binarization C124_points
  C124_selected_by_distance C124_selected_by_ratio C124_selected_by_size C124_size_distance
  C125_held C126_calibrated C126_exact C126_rounded C127_range_refuted C127_slice_chunk
  C127_slice_image C127_slice_noise C127_slice_range C127_slice_scene C128_coordinates C128_found
  C128_held C128_held_rounded C128_undo C129_iteration_start C129_iteration_swap C12_center
  C12_collinear C12_no_lines C12_nonneg C12_residual_hor C12_residual_total C12_ver_is_hor_swapped
  C130_contrast C130_contrast_denoise_refuted C130_contrast_half_refuted C130_exposure C130_noise
  C130_noise_margin_refuted C130_noise_points C130_points C131_colour C131_gray C131_nothing_lost
  C132_accuracy C132_marks C132_negative_refuted C132_not_worse C132_residue C133_chain C133_lines
  C133_scene C136_points C136_scene C138_corrected C138_from_dots C138_positions C138_targets
  C138_threshold C13_check_distortion C14_arity C14_collinear C14_compose C14_inverse
  C14_perspective_line C15_arity C15_identity C15_map_irrelevant C15_map_same C15_map_size
  C15_perspective_image C15_range C16_circle_mask C17_dot_pattern C17_error C17_margin_blank
  C18_index_error C18_line_pattern C18_margin_blank C18_transpose C19_chessboard C19_margin
  C20_inverse C20_point_lookup C20_same_as_line C21_auto C21_auto_all C22_no_padding C26_swap
  C33_lattice C33_lines C34_order_irrelevant C34_rectangle C34_rectangle_kept C35_reproduces
  C37_same_curvature_error C37_straight_grid_error C39_roi C39_roi_exact C39_square C40_automatic
  C40_binarization C40_minority C41_ratio C41_rejected_removed_refuted C41_size C42_distance
  C42_nearer_removed C43_membership C43_symmetric C43_translation C44_exact C44_grouping
  C45_full_ratio C45_groups C46_polyfit C47_hor C47_ver C48_margins C48_mask C48_mirror
  C49_index_error C49_points C50_group C50_isometry C50_rotation C51_subset C52_only_adds_hor
  C52_only_adds_ver C52_terminates_hor C52_terminates_ver C53_long_groups C53_terminates C54_affine
  C54_distribution C54_range C56_size C57_fallback C57_in_range_exact C57_minimum_refuted
  C57_option_ignored C57_vertex C58_constant C58_selected C58_small_radius C58_tolerance C59_affine
  C59_constant C59_error C59_integers_lost C59_integers_refuted C59_line C59_mean_one
  C59_nonnegative C59_slopes C59_three C60_all_minima_refuted C60_denoise C60_maximum C60_normalised
  C60_reported C60_short C60_spacing C60_subpixel C60_subpixel_order_refuted C60_total C61_accepted
  C61_band_horizontal C61_band_vertical C61_horizontal C61_pixels C61_right_angle
  C61_row_not_sampled C61_tall_refuted C61_vertical C62_horizontal_lines C62_vertical_lines
  C75_constant C75_float C75_int C75_uint16 C80_medians C80_single_dot C81_hor C81_ver C82_centres
  C82_errors C84_identity C84_lines_unchanged C85_iteration C85_iteration_start C85_steps
  C86_unchanged C88_option_irrelevant C89_brightness C89_horizontal_lines C89_slope_range
  C89_too_small C89_vertical_lines C90_contrast C90_normalised C90_pixels C91_displacement
  C91_horizontal_lines C91_image C91_inside_horizontal_lines C91_inside_vertical_lines
  C91_vertical_lines C91_zero_slope C92_offset_refuted C92_scale C93_dips_erased C93_even C93_scale
  C94_cross_points C94_profile C94_symmetry_refuted C95_warning C96_alike C96_linear C96_odd_refuted
  C96_scale C96_uniform C96_uniform_normalised C96_weighted_sum C96_window C99_columns
  C99_noisy_grid C99_rows C99_undistorted

== PrimFloat.abs, PrimFloat.add, PrimFloat.div, PrimFloat.eqb, PrimFloat.float, PrimFloat.frshiftexp, PrimFloat.ldshiftexp, PrimFloat.leb, PrimFloat.ltb, PrimFloat.mul, PrimFloat.normfr_mantissa, PrimFloat.of_uint63, PrimFloat.opp, PrimFloat.sqrt, PrimFloat.sub, PrimInt63.eqb, PrimInt63.int, PrimInt63.land, PrimInt63.lor, PrimInt63.lsl, PrimInt63.lsr, PrimInt63.sub
  C53_one_line_per_group_refuted C53_only_input_dots_refuted C62_doubles_refuted C75_int16_refuted
  C75_max_255_refuted C89_no_distance

== FloatAxioms.div_spec, PrimFloat.abs, PrimFloat.add, PrimFloat.div, PrimFloat.eqb, PrimFloat.float, PrimFloat.frshiftexp, PrimFloat.ldshiftexp, PrimFloat.leb, PrimFloat.ltb, PrimFloat.mul, PrimFloat.normfr_mantissa, PrimFloat.of_uint63, PrimFloat.opp, PrimFloat.sqrt, PrimFloat.sub, PrimInt63.eqb, PrimInt63.int, PrimInt63.land, PrimInt63.lor, PrimInt63.lsl, PrimInt63.lsr, PrimInt63.sub
  C55_zero_background

== FloatAxioms.SF2Prim_Prim2SF, FloatAxioms.add_spec, FloatAxioms.mul_spec, PrimFloat.abs, PrimFloat.add, PrimFloat.div, PrimFloat.eqb, PrimFloat.float, PrimFloat.frshiftexp, PrimFloat.ldshiftexp, PrimFloat.leb, PrimFloat.ltb, PrimFloat.mul, PrimFloat.normfr_mantissa, PrimFloat.of_uint63, PrimFloat.opp, PrimFloat.sqrt, PrimFloat.sub, PrimInt63.eqb, PrimInt63.int, PrimInt63.land, PrimInt63.lor, PrimInt63.lsl, PrimInt63.lsr, PrimInt63.sub
  C83_few_lines_nan

== FloatAxioms.SF2Prim_Prim2SF, FloatAxioms.add_spec, FloatAxioms.div_spec, FloatAxioms.mul_spec, PrimFloat.abs, PrimFloat.add, PrimFloat.div, PrimFloat.eqb, PrimFloat.float, PrimFloat.frshiftexp, PrimFloat.ldshiftexp, PrimFloat.leb, PrimFloat.ltb, PrimFloat.mul, PrimFloat.normfr_mantissa, PrimFloat.of_uint63, PrimFloat.opp, PrimFloat.sqrt, PrimFloat.sub, PrimInt63.eqb, PrimInt63.int, PrimInt63.land, PrimInt63.lor, PrimInt63.lsl, PrimInt63.lsr, PrimInt63.sub
  C36_missing_average

== FloatAxioms.abs_spec, FloatAxioms.add_spec, FloatAxioms.div_spec, FloatAxioms.sub_spec, PrimFloat.abs, PrimFloat.add, PrimFloat.div, PrimFloat.eqb, PrimFloat.float, PrimFloat.frshiftexp, PrimFloat.ldshiftexp, PrimFloat.leb, PrimFloat.ltb, PrimFloat.mul, PrimFloat.normfr_mantissa, PrimFloat.of_uint63, PrimFloat.opp, PrimFloat.sqrt, PrimFloat.sub, PrimInt63.eqb, PrimInt63.int, PrimInt63.land, PrimInt63.lor, PrimInt63.lsl, PrimInt63.lsr, PrimInt63.sub
  C90_uniform_nan

== ClassicalDedekindReals.sig_forall_dec, ClassicalDedekindReals.sig_not_dec, Classical_Prop.classic, FloatAxioms.Prim2SF_SF2Prim, FloatAxioms.Prim2SF_valid, FloatAxioms.SF2Prim_Prim2SF, FloatAxioms.abs_spec, FloatAxioms.eqb_spec, FloatAxioms.ltb_spec, FunctionalExtensionality.functional_extensionality_dep, PrimFloat.abs, PrimFloat.add, PrimFloat.div, PrimFloat.eqb, PrimFloat.float, PrimFloat.frshiftexp, PrimFloat.ldshiftexp, PrimFloat.leb, PrimFloat.ltb, PrimFloat.mul, PrimFloat.normfr_mantissa, PrimFloat.of_uint63, PrimFloat.opp, PrimFloat.sqrt, PrimFloat.sub, PrimInt63.eqb, PrimInt63.int, PrimInt63.land, PrimInt63.lor, PrimInt63.lsl, PrimInt63.lsr, PrimInt63.sub
  C117_nan_refuted

== ClassicalDedekindReals.sig_forall_dec, ClassicalDedekindReals.sig_not_dec, Classical_Prop.classic, FloatAxioms.Prim2SF_SF2Prim, FloatAxioms.Prim2SF_valid, FloatAxioms.SF2Prim_Prim2SF, FloatAxioms.abs_spec, FloatAxioms.add_spec, FloatAxioms.div_spec, FloatAxioms.eqb_spec, FloatAxioms.mul_spec, FunctionalExtensionality.functional_extensionality_dep, PrimFloat.abs, PrimFloat.add, PrimFloat.div, PrimFloat.eqb, PrimFloat.float, PrimFloat.frshiftexp, PrimFloat.ldshiftexp, PrimFloat.leb, PrimFloat.ltb, PrimFloat.mul, PrimFloat.normfr_mantissa, PrimFloat.of_uint63, PrimFloat.opp, PrimFloat.sqrt, PrimFloat.sub, PrimInt63.eqb, PrimInt63.int, PrimInt63.land, PrimInt63.lor, PrimInt63.lsl, PrimInt63.lsr, PrimInt63.sub
  C117_perspective_points

== ClassicalDedekindReals.sig_forall_dec, ClassicalDedekindReals.sig_not_dec, Classical_Prop.classic, FloatAxioms.Prim2SF_SF2Prim, FloatAxioms.Prim2SF_valid, FloatAxioms.SF2Prim_Prim2SF, FloatAxioms.abs_spec, FloatAxioms.add_spec, FloatAxioms.eqb_spec, FloatAxioms.mul_spec, FloatAxioms.sqrt_spec, FloatAxioms.sub_spec, FunctionalExtensionality.functional_extensionality_dep, PrimFloat.abs, PrimFloat.add, PrimFloat.div, PrimFloat.eqb, PrimFloat.float, PrimFloat.frshiftexp, PrimFloat.ldshiftexp, PrimFloat.leb, PrimFloat.ltb, PrimFloat.mul, PrimFloat.normfr_mantissa, PrimFloat.of_uint63, PrimFloat.opp, PrimFloat.sqrt, PrimFloat.sub, PrimInt63.eqb, PrimInt63.int, PrimInt63.land, PrimInt63.lor, PrimInt63.lsl, PrimInt63.lsr, PrimInt63.sub
  C117_points

== ClassicalDedekindReals.sig_forall_dec, ClassicalDedekindReals.sig_not_dec, Classical_Prop.classic, FloatAxioms.Prim2SF_SF2Prim, FloatAxioms.Prim2SF_valid, FloatAxioms.SF2Prim_Prim2SF, FloatAxioms.abs_spec, FloatAxioms.add_spec, FloatAxioms.div_spec, FloatAxioms.eqb_spec, FloatAxioms.ldshiftexp_spec, FloatAxioms.ltb_spec, FloatAxioms.mul_spec, FloatAxioms.of_uint63_spec, FloatAxioms.opp_spec, FunctionalExtensionality.functional_extensionality_dep, PrimFloat.abs, PrimFloat.add, PrimFloat.div, PrimFloat.eqb, PrimFloat.float, PrimFloat.frshiftexp, PrimFloat.ldshiftexp, PrimFloat.leb, PrimFloat.ltb, PrimFloat.mul, PrimFloat.normfr_mantissa, PrimFloat.of_uint63, PrimFloat.opp, PrimFloat.sqrt, PrimFloat.sub, PrimInt63.add, PrimInt63.eqb, PrimInt63.int, PrimInt63.land, PrimInt63.leb, PrimInt63.lor, PrimInt63.lsl, PrimInt63.lsr, PrimInt63.ltb, PrimInt63.sub, Uint63.add_spec, Uint63.eqb_correct, Uint63.eqb_refl, Uint63.leb_spec, Uint63.lor_spec, Uint63.lsl_spec, Uint63.lsr_spec, Uint63.ltb_spec, Uint63.of_to_Z, Uint63.sub_spec
  C117_perspective_positions

== ClassicalDedekindReals.sig_forall_dec, ClassicalDedekindReals.sig_not_dec, Classical_Prop.classic, FloatAxioms.Prim2SF_SF2Prim, FloatAxioms.Prim2SF_valid, FloatAxioms.SF2Prim_Prim2SF, FloatAxioms.abs_spec, FloatAxioms.add_spec, FloatAxioms.eqb_spec, FloatAxioms.ldshiftexp_spec, FloatAxioms.ltb_spec, FloatAxioms.mul_spec, FloatAxioms.of_uint63_spec, FloatAxioms.opp_spec, FloatAxioms.sqrt_spec, FloatAxioms.sub_spec, FunctionalExtensionality.functional_extensionality_dep, PrimFloat.abs, PrimFloat.add, PrimFloat.div, PrimFloat.eqb, PrimFloat.float, PrimFloat.frshiftexp, PrimFloat.ldshiftexp, PrimFloat.leb, PrimFloat.ltb, PrimFloat.mul, PrimFloat.normfr_mantissa, PrimFloat.of_uint63, PrimFloat.opp, PrimFloat.sqrt, PrimFloat.sub, PrimInt63.add, PrimInt63.eqb, PrimInt63.int, PrimInt63.land, PrimInt63.leb, PrimInt63.lor, PrimInt63.lsl, PrimInt63.lsr, PrimInt63.ltb, PrimInt63.sub, Uint63.add_spec, Uint63.eqb_correct, Uint63.eqb_refl, Uint63.leb_spec, Uint63.lor_spec, Uint63.lsl_spec, Uint63.lsr_spec, Uint63.ltb_spec, Uint63.of_to_Z, Uint63.sub_spec
  C117_positions
