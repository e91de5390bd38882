{
 "claims": [
  {
   "property": "C01",
   "status": "proved",
   "theorems": [
    "C01_forward_points",
    "C01_radial_geometry",
    "C01_identity",
    "C01_translate",
    "C01_rotate"
   ],
   "note": ""
  },
  {
   "property": "C02",
   "status": "proved",
   "theorems": [
    "C02_dtype",
    "C02_int_loss"
   ],
   "note": ""
  },
  {
   "property": "C03",
   "status": "proved",
   "theorems": [
    "C03_backward_points"
   ],
   "note": ""
  },
  {
   "property": "C04",
   "status": "proved",
   "theorems": [
    "C04_sampling",
    "C04_positions",
    "C04_bilinear",
    "C04_range",
    "C04_constant"
   ],
   "note": ""
  },
  {
   "property": "C05",
   "status": "proved",
   "theorems": [
    "C05_backward_identity",
    "C05_forward_identity",
    "C05_color_identity",
    "C05_gray_identity"
   ],
   "note": ""
  },
  {
   "property": "C06",
   "status": "proved",
   "theorems": [
    "C06_linear"
   ],
   "note": ""
  },
  {
   "property": "C07",
   "status": "proved",
   "theorems": [
    "C07_forward_image",
    "C07_forward_image_rounded"
   ],
   "note": ""
  },
  {
   "property": "C08",
   "status": "proved",
   "theorems": [
    "C08_slice",
    "C08_slice_double"
   ],
   "note": ""
  },
  {
   "property": "C09",
   "status": "proved",
   "theorems": [
    "C09_chunk_rows",
    "C09_monotone_needed"
   ],
   "note": ""
  },
  {
   "property": "C10",
   "status": "proved",
   "theorems": [
    "C10_accepted_ranges"
   ],
   "note": "For heights up to 32767 (np.arange(height, dtype=int16) does not overflow) and width >= 1."
  },
  {
   "property": "C11",
   "status": "proved",
   "theorems": [
    "C11_tall_refuted"
   ],
   "note": "A refutation: the guarantee of C08 fails for tall arrays."
  },
  {
   "property": "C12",
   "status": "proved",
   "theorems": [
    "C12_residual_hor",
    "C12_residual_total",
    "C12_no_lines",
    "C12_line_dist_meaning",
    "C12_nonneg",
    "C12_collinear",
    "C12_center",
    "C12_ver_is_hor_swapped"
   ],
   "note": "The fit and the sort are oracles with their specification as hypothesis; instances exist."
  },
  {
   "property": "C13",
   "status": "proved",
   "theorems": [
    "C13_check_distortion",
    "C13_empty"
   ],
   "note": ""
  },
  {
   "property": "C14",
   "status": "proved",
   "theorems": [
    "C14_perspective_line",
    "C14_arity",
    "C14_collinear",
    "C14_compose",
    "C14_inverse"
   ],
   "note": ""
  },
  {
   "property": "C15",
   "status": "proved",
   "theorems": [
    "C15_perspective_image",
    "C15_range",
    "C15_identity",
    "C15_arity",
    "C15_map_irrelevant",
    "C15_map_same",
    "C15_map_size"
   ],
   "note": ""
  },
  {
   "property": "C16",
   "status": "proved",
   "theorems": [
    "C16_circle_mask",
    "C16_symmetry"
   ],
   "note": ""
  },
  {
   "property": "C17",
   "status": "proved",
   "theorems": [
    "C17_dot_pattern",
    "C17_margin_blank",
    "C17_dots_disjoint",
    "C17_error"
   ],
   "note": "Exact arithmetic; margins >= 0 and images of at least 8 pixels per side."
  },
  {
   "property": "C18",
   "status": "proved",
   "theorems": [
    "C18_line_pattern",
    "C18_margin_blank",
    "C18_transpose",
    "C18_index_error"
   ],
   "note": ""
  },
  {
   "property": "C19",
   "status": "proved",
   "theorems": [
    "C19_chessboard",
    "C19_zero_size",
    "C19_margin"
   ],
   "note": ""
  },
  {
   "property": "C20",
   "status": "proved",
   "theorems": [
    "C20_point_lookup",
    "C20_same_as_line",
    "C20_inverse"
   ],
   "note": ""
  },
  {
   "property": "C21",
   "status": "proved",
   "theorems": [
    "C21_forms",
    "C21_shape",
    "C21_negative",
    "C21_auto",
    "C21_auto_all"
   ],
   "note": "The fitted inverse polynomial is an arbitrary oracle result; bounds on all four sides need the centre in the image and a non-negative fitted factor, otherwise each corner is bounded on its own sides."
  },
  {
   "property": "C22",
   "status": "proved",
   "theorems": [
    "C22_gray",
    "C22_channels",
    "C22_no_channels",
    "C22_no_padding"
   ],
   "note": "Any arithmetic and interpolation routine; the unpadded case needs rounding to fix the centre and interpolation to read in-image pixels only."
  },
  {
   "property": "C23",
   "status": "proved",
   "theorems": [
    "C23_cv2_maps",
    "C23_video_maps"
   ],
   "note": ""
  },
  {
   "property": "C24",
   "status": "proved",
   "theorems": [
    "C24_frames_shown",
    "C24_never_returns",
    "C24_first_read_fails",
    "C24_other_kind",
    "C24_stream"
   ],
   "note": "Streams of reads and keys are arbitrary functions; the loop is observed after any number of iterations."
  },
  {
   "property": "C25",
   "status": "proved",
   "theorems": [
    "C25_adds_center",
    "C25_counts",
    "C25_restores"
   ],
   "note": "Restoring the points in exact arithmetic; counts in every arithmetic."
  },
  {
   "property": "C26",
   "status": "proved",
   "theorems": [
    "C26_crossing",
    "C26_first_change",
    "C26_swap",
    "C26_few_lines",
    "C26_few_lines_error"
   ],
   "note": "np.polyfit is any least-squares solver; the symmetry holds for every rounding of products."
  },
  {
   "property": "C27",
   "status": "proved",
   "theorems": [
    "C27_exact",
    "C27_positive"
   ],
   "note": "Exact arithmetic."
  },
  {
   "property": "C28",
   "status": "proved",
   "theorems": [
    "C28_minimises",
    "C28_window",
    "C28_total"
   ],
   "note": "Exact arithmetic with any float32 store; the minimisation routine is arbitrary and is handed the squared distance from the origin along the parabola."
  },
  {
   "property": "C29",
   "status": "proved",
   "theorems": [
    "C29_progression",
    "C29_unchanged"
   ],
   "note": "optimize.minimize is assumed to minimise quadratic functions."
  },
  {
   "property": "C30",
   "status": "proved",
   "theorems": [
    "C30_identity"
   ],
   "note": "Exact arithmetic with a store exact on the line distances (float32 example); least squares and minimisation are oracles with their specification."
  },
  {
   "property": "C31",
   "status": "proved",
   "theorems": [
    "C31_same_for_both_mappings",
    "C31_few_points",
    "C31_inverts",
    "C31_roundtrip",
    "C31_constant",
    "C31_default_points"
   ],
   "note": "Exact arithmetic; np.linalg.lstsq is any least-squares solver."
  },
  {
   "property": "C32",
   "status": "proved",
   "theorems": [
    "C32_transpose",
    "C32_on_both_lines",
    "C32_from_points",
    "C32_straight"
   ],
   "note": "Transposition in every arithmetic; incidence in exact arithmetic up to the final store."
  },
  {
   "property": "C33",
   "status": "proved",
   "theorems": [
    "C33_lattice",
    "C33_lines",
    "C33_total"
   ],
   "note": "Exact arithmetic; at least two lines per direction (with one the line distance is the mean of an empty array)."
  },
  {
   "property": "C34",
   "status": "proved",
   "theorems": [
    "C34_four_only",
    "C34_xy_order",
    "C34_rectangle",
    "C34_order_irrelevant",
    "C34_rectangle_kept"
   ],
   "note": "Exact arithmetic with any argsort; argument checks and coordinate order in every arithmetic."
  },
  {
   "property": "C35",
   "status": "proved",
   "theorems": [
    "C35_backward",
    "C35_counts",
    "C35_reproduces",
    "C35_unique"
   ],
   "note": "Exact arithmetic; np.linalg.lstsq is any least-squares solver."
  },
  {
   "property": "C36",
   "status": "proved",
   "theorems": [
    "C36_counts",
    "C36_few_lines",
    "C36_missing_extremal",
    "C36_missing_average"
   ],
   "note": "Counts and errors in every arithmetic; the NaN path in IEEE doubles."
  },
  {
   "property": "C37",
   "status": "proved",
   "theorems": [
    "C37_crossing",
    "C37_equal_leading",
    "C37_first_method_total",
    "C37_same_curvature_error",
    "C37_straight_grid_error"
   ],
   "note": "Exact arithmetic; np.roots is an oracle specified for degree at most two."
  },
  {
   "property": "C38",
   "status": "proved",
   "theorems": [
    "C38_transposed",
    "C38_on_parabolas",
    "C38_total"
   ],
   "note": "Transposition in every arithmetic; incidence relative to the residual of fsolve on the equations it is given."
  },
  {
   "property": "C39",
   "status": "proved",
   "theorems": [
    "C39_roi",
    "C39_roi_exact",
    "C39_square"
   ],
   "note": "Double precision for sides up to 2^40 pixels, and exactly."
  },
  {
   "property": "C40",
   "status": "proved",
   "theorems": [
    "C40_minority",
    "C40_binarization",
    "C40_automatic"
   ],
   "note": ""
  },
  {
   "property": "C41",
   "status": "proved",
   "theorems": [
    "C41_size",
    "C41_ratio",
    "C41_rejected_removed_refuted"
   ],
   "note": "The English claim that rejected dots disappear is refuted: boxes of accepted dots are copied whole (C41_rejected_removed_refuted)."
  },
  {
   "property": "C42",
   "status": "proved",
   "theorems": [
    "C42_distance",
    "C42_nearer_removed"
   ],
   "note": "Exact arithmetic; connected-component labelling is an oracle with its specification as hypothesis."
  },
  {
   "property": "C43",
   "status": "proved",
   "theorems": [
    "C43_membership",
    "C43_symmetric",
    "C43_translation"
   ],
   "note": ""
  },
  {
   "property": "C44",
   "status": "proved",
   "theorems": [
    "C44_grouping",
    "C44_exact",
    "C44_errors"
   ],
   "note": "Point-list input; the structural part holds for every rounding."
  },
  {
   "property": "C45",
   "status": "proved",
   "theorems": [
    "C45_groups",
    "C45_full_ratio"
   ],
   "note": ""
  },
  {
   "property": "C46",
   "status": "proved",
   "theorems": [
    "C46_grouping",
    "C46_residual",
    "C46_polyfit"
   ],
   "note": "Grouping and residual removal in every arithmetic; polynomial-fit grouping in exact arithmetic for a fit that does not depend on the order of points (instance fit_sorted)."
  },
  {
   "property": "C47",
   "status": "proved",
   "theorems": [
    "C47_hor",
    "C47_ver"
   ],
   "note": ""
  },
  {
   "property": "C48",
   "status": "proved",
   "theorems": [
    "C48_mask",
    "C48_margins",
    "C48_mirror"
   ],
   "note": "No rotation (ndi.rotate is not modelled)."
  },
  {
   "property": "C49",
   "status": "proved",
   "theorems": [
    "C49_points",
    "C49_index_error"
   ],
   "note": "With or without rotation, for whatever mask make_parabola_mask returned."
  },
  {
   "property": "C50",
   "status": "proved",
   "theorems": [
    "C50_rotation",
    "C50_isometry",
    "C50_group"
   ],
   "note": ""
  },
  {
   "property": "C51",
   "status": "proved",
   "theorems": [
    "C51_subset"
   ],
   "note": ""
  },
  {
   "property": "C52",
   "status": "proved",
   "theorems": [
    "C52_terminates_hor",
    "C52_terminates_ver",
    "C52_only_adds_hor",
    "C52_only_adds_ver"
   ],
   "note": ""
  },
  {
   "property": "C53",
   "status": "proved",
   "theorems": [
    "C53_one_line_per_group_refuted",
    "C53_only_input_dots_refuted",
    "C53_terminates",
    "C53_long_groups"
   ],
   "note": "Two refutations in double precision plus termination and the guarded guarantee."
  },
  {
   "property": "C54",
   "status": "proved",
   "theorems": [
    "C54_affine",
    "C54_distribution",
    "C54_range"
   ],
   "note": "Resampling and line fit are oracles; images whose longer side is 3 or at least 5 (otherwise np.polyfit gets too few points)."
  },
  {
   "property": "C55",
   "status": "proved",
   "theorems": [
    "C55_formula",
    "C55_zero_background"
   ],
   "note": "Formula in every arithmetic; NaN/infinity in IEEE doubles."
  },
  {
   "property": "C56",
   "status": "proved",
   "theorems": [
    "C56_num_dots",
    "C56_size"
   ],
   "note": ""
  },
  {
   "property": "C57",
   "status": "proved",
   "theorems": [
    "C57_in_range",
    "C57_in_range_exact",
    "C57_vertex",
    "C57_fallback",
    "C57_option_ignored",
    "C57_minimum_refuted"
   ],
   "note": "Range in every arithmetic whose comparisons are those of the stored numbers; vertex in exact arithmetic; np.polyfit is any least-squares solver."
  },
  {
   "property": "C58",
   "status": "proved",
   "theorems": [
    "C58_ordered_sublist",
    "C58_offset_subset",
    "C58_selected",
    "C58_residuals",
    "C58_tolerance",
    "C58_small_radius",
    "C58_constant"
   ],
   "note": "Sub-list and offset claims in every arithmetic; the tests in exact arithmetic; the Gaussian fit is an oracle returning any parameters."
  },
  {
   "property": "C59",
   "status": "proved",
   "theorems": [
    "C59_error",
    "C59_slopes",
    "C59_nonnegative",
    "C59_constant",
    "C59_mean_one",
    "C59_affine",
    "C59_line",
    "C59_three",
    "C59_integers_lost",
    "C59_integers_refuted"
   ],
   "note": "Exact arithmetic; np.polyfit is any least-squares solver."
  },
  {
   "property": "C60",
   "status": "proved",
   "theorems": [
    "C60_reported",
    "C60_short",
    "C60_maximum",
    "C60_denoise",
    "C60_normalised",
    "C60_spacing",
    "C60_subpixel",
    "C60_searched",
    "C60_selected",
    "C60_searched_range",
    "C60_all_minima_refuted",
    "C60_subpixel_order_refuted",
    "C60_total"
   ],
   "note": "Characterisation in exact arithmetic; range of the positions with every option in every arithmetic; np.polyfit and np.argsort are oracles with their specification, the Gaussian filter is arbitrary."
  },
  {
   "property": "C61",
   "status": "proved",
   "theorems": [
    "C61_accepted",
    "C61_right_angle",
    "C61_out_of_range",
    "C61_horizontal",
    "C61_vertical",
    "C61_band_horizontal",
    "C61_band_vertical",
    "C61_pixels",
    "C61_row_not_sampled",
    "C61_tall_refuted"
   ],
   "note": "Exact arithmetic with the true trigonometric functions; the interpolation is any routine that depends on the pixels only (and returns pixels at pixels, for the pixel statement). The error statement C61_out_of_range holds in every arithmetic."
  },
  {
   "property": "C62",
   "status": "proved",
   "theorems": [
    "C62_horizontal_lines",
    "C62_vertical_lines",
    "C62_doubles_refuted"
   ],
   "note": "The claim is proved in exact arithmetic and refuted for doubles (every choice of the library functions that gives rows 7..16)."
  },
  {
   "property": "C63",
   "status": "proved",
   "theorems": [
    "C63_no_overwrite",
    "C63_succeeds",
    "C63_plot_without_extension_refuted"
   ],
   "note": "save_image: PIL refuses empty extensions and extensions with '_'; figures: names with an extension, the case without one is refuted in C63_plot_without_extension_refuted."
  },
  {
   "property": "C64",
   "status": "proved",
   "theorems": [
    "C64_extension",
    "C64_no_name",
    "C64_collision"
   ],
   "note": "Stated for all five savers with a default extension."
  },
  {
   "property": "C65",
   "status": "proved",
   "theorems": [
    "C65_text_round_trip",
    "C65_returned_path",
    "C65_written"
   ],
   "note": "str/float round trip of the numbers is a hypothesis; the spelling of the returned path is covered on POSIX."
  },
  {
   "property": "C66",
   "status": "proved",
   "theorems": [
    "C66_json_round_trip",
    "C66_returned_path"
   ],
   "note": "repr/parse round trip of floats is a hypothesis (float_repr_ok); JSON grammar modelled for what json.dump emits."
  },
  {
   "property": "C67",
   "status": "proved",
   "theorems": [
    "C67_bad_center",
    "C67_bad_facts"
   ],
   "note": ""
  },
  {
   "property": "C68",
   "status": "proved",
   "theorems": [
    "C68_unescape",
    "C68_raw",
    "C68_clean"
   ],
   "note": ""
  },
  {
   "property": "C69",
   "status": "proved",
   "theorems": [
    "C69_folder",
    "C69_image_without_extension_fails"
   ],
   "note": ""
  },
  {
   "property": "C70",
   "status": "proved",
   "theorems": [
    "C70_listing",
    "C70_find_key",
    "C70_object",
    "C70_object_no_file"
   ],
   "note": "No object has two hard links; names are non-empty, not '.', and contain no slash."
  },
  {
   "property": "C71",
   "status": "proved",
   "theorems": [
    "C71_first_group",
    "C71_no_group",
    "C71_key_given",
    "C71_no_file"
   ],
   "note": ""
  },
  {
   "property": "C72",
   "status": "proved",
   "theorems": [
    "C72_integer_index",
    "C72_ranges",
    "C72_rejected"
   ],
   "note": ""
  },
  {
   "property": "C73",
   "status": "proved",
   "theorems": [
    "C73_hdf_round_trip",
    "C73_returned_path"
   ],
   "note": ""
  },
  {
   "property": "C74",
   "status": "proved",
   "theorems": [
    "C74_bad_option_key",
    "C74_stream"
   ],
   "note": ""
  },
  {
   "property": "C75",
   "status": "proved",
   "theorems": [
    "C75_float",
    "C75_int",
    "C75_uint16",
    "C75_constant",
    "C75_uint8",
    "C75_max_255_refuted",
    "C75_int16_refuted"
   ],
   "note": "Float arithmetic: the maximum maps to 254 or 255; both exceptions are refutations."
  },
  {
   "property": "C76",
   "status": "proved",
   "theorems": [
    "C76_channels_last",
    "C76_low_image",
    "C76_plain"
   ],
   "note": ""
  },
  {
   "property": "C77",
   "status": "proved",
   "theorems": [
    "C77_find_file"
   ],
   "note": ""
  },
  {
   "property": "C78",
   "status": "proved",
   "theorems": [
    "C78_pickle_round_trip"
   ],
   "note": ""
  },
  {
   "property": "C79",
   "status": "proved",
   "theorems": [
    "C79_stream"
   ],
   "note": ""
  },
  {
   "property": "C80",
   "status": "proved",
   "theorems": [
    "C80_medians",
    "C80_single_dot"
   ],
   "note": ""
  },
  {
   "property": "C81",
   "status": "proved",
   "theorems": [
    "C81_hor",
    "C81_ver"
   ],
   "note": ""
  },
  {
   "property": "C82",
   "status": "proved",
   "theorems": [
    "C82_centres",
    "C82_errors"
   ],
   "note": ""
  },
  {
   "property": "C83",
   "status": "proved",
   "theorems": [
    "C83_few_lines_nan"
   ],
   "note": "IEEE doubles."
  },
  {
   "property": "C84",
   "status": "proved",
   "theorems": [
    "C84_lines_unchanged",
    "C84_identity"
   ],
   "note": "Exact arithmetic; fits, minimisation and least squares are oracles with their specification."
  },
  {
   "property": "C85",
   "status": "proved",
   "theorems": [
    "C85_barrel",
    "C85_pincushion",
    "C85_iteration",
    "C85_crossing",
    "C85_iteration_start",
    "C85_steps"
   ],
   "note": "Exact arithmetic with the true cosine and arctangent."
  },
  {
   "property": "C86",
   "status": "proved",
   "theorems": [
    "C86_unchanged"
   ],
   "note": "Exact arithmetic with the true cosine and arctangent."
  },
  {
   "property": "C87",
   "status": "proved",
   "theorems": [
    "C87_on_regular_parabolas",
    "C87_ideal_unchanged"
   ],
   "note": "Exact arithmetic, positive line distances; relative to the residual of fsolve."
  },
  {
   "property": "C88",
   "status": "proved",
   "theorems": [
    "C88_option_irrelevant"
   ],
   "note": "Exact arithmetic; optimize.minimize is assumed to minimise quadratic functions."
  },
  {
   "property": "C92",
   "status": "proved",
   "theorems": [
    "C92_scale",
    "C92_offset_refuted"
   ],
   "note": "Exact arithmetic; np.polyfit is any least-squares solver."
  },
  {
   "property": "C93",
   "status": "proved",
   "theorems": [
    "C93_even",
    "C93_scale",
    "C93_dips_erased"
   ],
   "note": "Exact arithmetic; profiles of three, or of five and more samples (otherwise the line is fitted to fewer than two samples)."
  },
  {
   "property": "C91",
   "status": "proved",
   "theorems": [
    "C91_image",
    "C91_vertical_lines",
    "C91_horizontal_lines",
    "C91_displacement",
    "C91_zero_slope",
    "C91_inside_vertical_lines",
    "C91_inside_horizontal_lines"
   ],
   "note": "Exact arithmetic; np.polyfit and np.argsort are oracles with their specification; smoothing, FFT filter and interpolation are arbitrary shape-preserving routines."
  },
  {
   "property": "C89",
   "status": "proved",
   "theorems": [
    "C89_vertical_lines",
    "C89_horizontal_lines",
    "C89_slope_range",
    "C89_distance_bounds",
    "C89_brightness",
    "C89_no_distance",
    "C89_too_small"
   ],
   "note": "Exact arithmetic with the true tangent; the projection is any routine returning one non-empty column per angle that depends on the pixels only. NaN claim in doubles for arbitrary library functions. Non-positive search ranges and the empty region with a dark background are left to the library."
  },
  {
   "property": "C90",
   "status": "proved",
   "theorems": [
    "C90_small",
    "C90_pixels",
    "C90_normalised",
    "C90_contrast",
    "C90_uniform_nan"
   ],
   "note": "Exact arithmetic; the Gaussian filter is any shape-preserving routine (for the contrast claim: one that commutes with the change). The NaN claim is in doubles."
  },
  {
   "property": "C95",
   "status": "proved",
   "theorems": [
    "C95_warning",
    "C95_few_lines",
    "C95_border_line_missed"
   ],
   "note": "Exact arithmetic with arbitrary storage rounding of the coefficients; np.polyfit is any least-squares solver."
  },
  {
   "property": "C94",
   "status": "proved",
   "theorems": [
    "C94_profile",
    "C94_accepted",
    "C94_cross_points",
    "C94_symmetry_refuted"
   ],
   "note": "Exact arithmetic; interpolation, smoothing and FFT filter are any routines that commute with transposition (a nearest-pixel routine is the instance shown)."
  },
  {
   "property": "C96",
   "status": "proved",
   "theorems": [
    "C96_weighted_sum",
    "C96_linear",
    "C96_alike",
    "C96_uniform",
    "C96_uniform_normalised",
    "C96_scale",
    "C96_odd_refuted",
    "C96_window"
   ],
   "note": "Exact arithmetic; fft2/ifft2 are any routines that return the discrete Fourier transform and its inverse; modes 'reflect', 'edge' and others that copy pixels ('constant' and statistics modes are not covered)."
  },
  {
   "property": "C97",
   "status": "proved",
   "theorems": [
    "C97_forward_least_squares",
    "C97_backward_least_squares",
    "C97_forward_exact",
    "C97_backward_exact",
    "C97_backward_from_forward"
   ],
   "note": "Exact arithmetic with arbitrary storage rounding of the parabola coefficients; np.polyfit and np.linalg.lstsq are any exact least-squares solvers. Real division: no fitted parabola vanishes at a dot."
  },
  {
   "property": "C98",
   "status": "proved",
   "theorems": [
    "C98_shift",
    "C98_scale",
    "C98_scale_correction",
    "C98_swap",
    "C98_coarse_shift_refuted"
   ],
   "note": "Shift and exchange: exact arithmetic with arbitrary storage rounding of the parabola coefficients; scale: exact arithmetic. np.polyfit and np.linalg.lstsq are any exact least-squares solvers, optimize.minimize is exact on quadratics. For find_cod_coarse the claim is false; C98_coarse_shift_refuted gives a grid."
  },
  {
   "property": "C99",
   "status": "proved",
   "theorems": [
    "C99_rows",
    "C99_noisy_grid",
    "C99_columns",
    "C99_undistorted"
   ],
   "note": "Exact arithmetic; np.argsort is any sorting permutation, np.polyfit and np.linalg.lstsq any exact least-squares solvers, optimize.minimize exact on quadratics."
  },
  {
   "property": "C100",
   "status": "proved",
   "theorems": [
    "C100_centres",
    "C100_calibration",
    "C100_touching"
   ],
   "note": "As C99; ndi.label is any routine that numbers the connected components (one exists for every image, labelling_exists). The image is not binarised first (binarize=False)."
  },
  {
   "property": "C101",
   "status": "proved",
   "theorems": [
    "C101_last_words",
    "C101_too_short",
    "C101_bad_line"
   ],
   "note": "Texts of ASCII characters; float is any function from words to numbers."
  },
  {
   "property": "C102",
   "status": "proved",
   "theorems": [
    "C102_tif",
    "C102_tif_channels",
    "C102_png",
    "C102_load_error"
   ],
   "note": "The image library is modelled as storing the array it is given, which holds for TIFF and PNG; the theorems are restricted to these formats."
  },
  {
   "property": "C103",
   "status": "proved",
   "theorems": [
    "C103_any_layout",
    "C103_missing_name",
    "C103_not_an_object",
    "C103_cut",
    "C103_saved_file_cut",
    "C103_after_failed_save",
    "C103_text_cut_refuted"
   ],
   "note": "Texts of ASCII characters; values are numbers, null, booleans, lists and objects (no strings), names are without escapes. float.__repr__ and float are functions that are inverse to each other. C103_text_cut_refuted: text metadata have no such protection."
  },
  {
   "property": "C104",
   "status": "proved",
   "theorems": [
    "C104_rows",
    "C104_columns",
    "C104_apart"
   ],
   "note": "Exact arithmetic; np.argsort is any sorting permutation, np.polyfit any exact least-squares solver that returns; rows of at most 32767 dots (int16 in the code)."
  },
  {
   "property": "C105",
   "status": "proved",
   "theorems": [
    "C105_missing",
    "C105_directory",
    "C105_read_only"
   ],
   "note": "The content of files is modelled by kind (image, HDF tree, text, bytes, figure)."
  },
  {
   "property": "C106",
   "status": "proved",
   "theorems": [
    "C106_unsupported",
    "C106_no_extension"
   ],
   "note": "plt.savefig is modelled by its rule for names and formats; the drawing is not modelled. With overwrite=False and no extension an existing file can be overwritten: C63_plot_without_extension_refuted."
  },
  {
   "property": "C107",
   "status": "proved",
   "theorems": [
    "C107_points",
    "C107_small",
    "C107_positions",
    "C107_pixels"
   ],
   "note": "Every operation is rounded to double precision (np.power to the nearest double; overflow is not modelled); the interpolation itself is exact. Sums in the order of np.sum for up to 8 terms."
  },
  {
   "property": "C108",
   "status": "proved",
   "theorems": [
    "C108_size_distance",
    "C108_slopes",
    "C108_selection",
    "C108_chain"
   ],
   "note": "Exact arithmetic. ndi.label is any labelling of the 4-connected sets, clear_border removes the 8-connected sets that reach the edge (DotSpec.v), the Radon transform is only assumed to have its maximum at the middle angle; np.polyfit and the optimisers as in C100. A dot of even size lacks its last row and column, which moves all centres by the same amount."
  },
  {
   "property": "C109",
   "status": "proved",
   "theorems": [
    "C109_points",
    "C109_points_backward",
    "C109_mirror",
    "C109_bilinear",
    "C109_image",
    "C109_forward",
    "C109_forward_refuted",
    "C109_perspective_points",
    "C109_perspective_image"
   ],
   "note": "For every rounding of the arithmetic; the interpolation is any that treats the axes alike, as order 1 does (C109_bilinear). C109_forward_refuted: colliding pixels."
  },
  {
   "property": "C110",
   "status": "proved",
   "theorems": [
    "C110_scene",
    "C110_smooth",
    "C110_perspective",
    "C110_calibrated"
   ],
   "note": "Order-1 interpolation, itself exact; positions in double precision as in C107 (perspective: exact, stored in single precision). Pixels are point samples of the brightness. The conditions of C110_calibrated are those of C97_backward_exact."
  },
  {
   "property": "C111",
   "status": "proved",
   "theorems": [
    "C111_weak",
    "C111_positive",
    "C111_rays",
    "C111_order",
    "C111_points",
    "C111_fold",
    "C111_image",
    "C111_chunk"
   ],
   "note": "Exact arithmetic (positions stored in single precision). C111_weak and C111_positive give the two sufficient conditions; C111_fold is the converse."
  },
  {
   "property": "C112",
   "status": "proved",
   "theorems": [
    "C112_rows",
    "C112_columns",
    "C112_residual_rows",
    "C112_residual_columns",
    "C112_workflow"
   ],
   "note": "Exact arithmetic. argsort is assumed to depend on the order of its values only (order_based; shown for insertion sort)."
  },
  {
   "property": "C113",
   "status": "proved",
   "theorems": [
    "C113_points",
    "C113_forward",
    "C113_backward",
    "C113_image",
    "C113_four"
   ],
   "note": "Exact arithmetic for the calibration, float32 coordinates as in C110 for the image. The eight coefficients divide by the ninth: the pixel (0, 0) must correspond to a point of the plane."
  },
  {
   "property": "C114",
   "status": "proved",
   "theorems": [
    "C114_points",
    "C114_small",
    "C114_positions",
    "C114_pixels",
    "C114_scene"
   ],
   "note": "No overflow. Interpolation itself in exact arithmetic."
  },
  {
   "property": "C115",
   "status": "proved",
   "theorems": [
    "C115_monotone",
    "C115_noise",
    "C115_defect",
    "C115_perspective"
   ],
   "note": "Linear interpolation in exact arithmetic."
  },
  {
   "property": "C116",
   "status": "proved",
   "theorems": [
    "C116_kept",
    "C116_middle_refuted"
   ],
   "note": "The forward model is the one calc_pad fits (a parameter, as in C21). C116_middle_refuted gives the counterexample for non-monotone models."
  },
  {
   "property": "C117",
   "status": "proved",
   "theorems": [
    "C117_points",
    "C117_positions",
    "C117_perspective_points",
    "C117_perspective_positions",
    "C117_nan_refuted"
   ],
   "note": "Machine numbers are the kernel's primitive floats, through their standard library axioms and Flocq's correspondence. Powers are assumed correctly rounded (hypothesis pow_ok, met by exact_pow); numpy's sums are assumed to run in sequence."
  },
  {
   "property": "C118",
   "status": "proved",
   "theorems": [
    "C118_profile",
    "C118_each_line",
    "C118_horizontal_lines",
    "C118_vertical_lines"
   ],
   "note": "The cross-section is the one seen after normalisation and smoothing, which are given functions; exact arithmetic. Peak selection (select_peaks) off."
  },
  {
   "property": "C119",
   "status": "proved",
   "theorems": [
    "C119_one_slice",
    "C119_cut",
    "C119_stacked",
    "C119_order_exact",
    "C119_order_double",
    "C119_projections",
    "C119_slice_projections",
    "C119_order_weak",
    "C119_cut_refuted"
   ],
   "note": "Linear interpolation, as in the code. Limits on the image size as in C09 (int16 indices, exact single-precision coordinates)."
  },
  {
   "property": "C120",
   "status": "proved",
   "theorems": [
    "C120_forward",
    "C120_backward",
    "C120_backward_from_forward",
    "C120_rms",
    "C120_everywhere",
    "C120_near"
   ],
   "note": "Exact arithmetic apart from the float32 storage of the fitted parabolas. The third part is for lines that are parabolas symmetric about the centre, none through it."
  },
  {
   "property": "C121",
   "status": "proved",
   "theorems": [
    "C121_centre",
    "C121_grids",
    "C121_perspective_effect",
    "C121_coefficients"
   ],
   "note": "Exact arithmetic apart from the float32 storage of the fitted parabolas. The iterated vanishing-point search is not covered: a corrected line could have too few different positions."
  },
  {
   "property": "C122",
   "status": "proved",
   "theorems": [
    "C122_alone",
    "C122_nothing_lost",
    "C122_independent",
    "C122_any_moment",
    "C122_apart",
    "C122_race_refuted",
    "C122_moments",
    "C122_json_crash",
    "C122_old_lost_refuted",
    "C122_text_crash_refuted",
    "C122_history"
   ],
   "note": "C122_alone ties the step model to the functions; C122_nothing_lost, C122_independent (with C122_apart for a simple condition), C122_any_moment, C122_moments, C122_json_crash, C122_history are proved; C122_race_refuted, C122_old_lost_refuted and C122_text_crash_refuted show what does not hold. Steps are atomic file-system calls; figures need a name with an extension."
  },
  {
   "property": "C123",
   "status": "proved",
   "theorems": [
    "C123_mirrored",
    "C123_coarse_centre",
    "C123_bailey_centre",
    "C123_tie_refuted"
   ],
   "note": "Exact arithmetic apart from the float32 storage of fitted parabolas and positions (any rounding with st(-x) = -st(x), e.g. float32). C123_tie_refuted: with two rows equally near to the centre the listing order matters. find_cod_fine is not covered: its search grid is symmetric only for some dot distances."
  },
  {
   "property": "C124",
   "status": "proved",
   "theorems": [
    "C124_points",
    "C124_number",
    "C124_selected_by_size",
    "C124_selected_by_ratio",
    "C124_selected_by_distance",
    "C124_size_distance",
    "C124_binarization"
   ],
   "note": "Exact arithmetic. Labelling and border clearing are given by their specifications (connected sets of pixels); for select_dots_based_ratio the axis lengths are assumed not to depend on the direction; for binarization the library filters (threshold, opening, hole filling) are assumed to treat all directions alike. The 2 x 2 median filter of denoise=True is not symmetric, so denoising is left out."
  },
  {
   "property": "C125",
   "status": "proved",
   "theorems": [
    "C125_held"
   ],
   "note": "Props_Held.v. C125_held chains C124 (dots), C99 (grouping) and C98, C121, C123 (calibration under shifts, exchange, reordering and mirroring). C125_target applies it to the generated 64 x 64 pattern upside down, transposed and framed."
  },
  {
   "property": "C126",
   "status": "proved",
   "theorems": [
    "C126_exact",
    "C126_rounded",
    "C126_calibrated"
   ],
   "note": "Order-1 interpolation in exact arithmetic at the computed positions. Frames are left out because positions beyond the picture are moved to its edge. The rounded bound is the sum of the bounds of C107 for the two centres."
  },
  {
   "property": "C127",
   "status": "proved",
   "theorems": [
    "C127_slice_image",
    "C127_slice_chunk",
    "C127_slice_range",
    "C127_slice_noise",
    "C127_slice_scene",
    "C127_range_refuted"
   ],
   "note": "Interpolation of order 1 in exact arithmetic at the computed positions; the slice is stored in single precision, the pictures store positions in single precision. The range claim without its condition is refuted by C127_range_refuted."
  },
  {
   "property": "C128",
   "status": "proved",
   "theorems": [
    "C128_found",
    "C128_undo",
    "C128_coordinates",
    "C128_held",
    "C128_held_rounded"
   ],
   "note": "The least-squares solver is an oracle returning a minimiser; points are exact. The corner case of a map sending (0, 0) to infinity comes from the ninth coefficient fixed to 1 in the code; C128_lost is an instance."
  },
  {
   "property": "C129",
   "status": "proved",
   "theorems": [
    "C129_coarse",
    "C129_bailey",
    "C129_vanishing",
    "C129_iteration_start",
    "C129_bailey_swap",
    "C129_vanishing_swap",
    "C129_iteration_swap"
   ],
   "note": "Exact arithmetic for the factors; any storage rounding for the exchange in Bailey's method. Bailey's method needs lines of a direction which do not all pass through one point of an axis through a centre met on the way (its straight line is undetermined otherwise). The constructions need parabolas with different curvatures, vanishing points not all in one column (row) and, for the exchange, lines through them which are not parallel. The translation of the grid is not a symmetry of find_cod_coarse (C98_coarse_shift_refuted)."
  },
  {
   "property": "C130",
   "status": "proved",
   "theorems": [
    "C130_noise",
    "C130_noise_margin_refuted",
    "C130_exposure",
    "C130_contrast",
    "C130_contrast_half_refuted",
    "C130_contrast_denoise_refuted",
    "C130_points",
    "C130_noise_points"
   ],
   "note": "Exact arithmetic. The external operations are arguments; the median filter is any filter that takes the value of a fixed rank in a window (scipy takes the third smallest of four). C130_noise_margin_refuted, C130_contrast_half_refuted and C130_contrast_denoise_refuted show that the three restrictions are needed."
  },
  {
   "property": "C131",
   "status": "proved",
   "theorems": [
    "C131_gray",
    "C131_colour",
    "C131_nothing_lost"
   ],
   "note": "Exact arithmetic with positions stored in single precision, bilinear interpolation, frames of up to 2^24 pixels a side. The frame of C131_nothing_lost is that of C116 (less than one pixel outside at the top and left, less than two at the bottom and right)."
  },
  {
   "property": "C132",
   "status": "proved",
   "theorems": [
    "C132_residue",
    "C132_not_worse",
    "C132_accuracy",
    "C132_rising",
    "C132_marks",
    "C132_negative_refuted"
   ],
   "note": "The points are computed in exact arithmetic in float lines (integer lines: C02); the picture with positions in exact or double precision (C110). The minimiser is an arbitrary function; only its returned radius enters."
  },
  {
   "property": "C133",
   "status": "proved",
   "theorems": [
    "C133_lines",
    "C133_scene",
    "C133_chain"
   ],
   "note": "Lines and coefficients in exact arithmetic (polyfit, least squares and minimiser as specified oracles); both corrections of the picture with positions in exact or double arithmetic and stored in single precision, bilinear interpolation."
  },
  {
   "property": "C134",
   "status": "proved",
   "theorems": [
    "C134_lens",
    "C134_target",
    "C134_coarse",
    "C134_bailey",
    "C134_photo",
    "C134_odd_refuted"
   ],
   "note": "Exact arithmetic; np.polyfit as a specified oracle. The odd case is refuted by a concrete target."
  },
  {
   "property": "C135",
   "status": "proved",
   "theorems": [
    "C135_coarse",
    "C135_bailey",
    "C135_jump_refuted"
   ],
   "note": "Exact arithmetic; np.polyfit as a specified oracle. The straight middle line is refuted by a concrete target (C135_jump_refuted)."
  },
  {
   "property": "C136",
   "status": "proved",
   "theorems": [
    "C136_positions",
    "C136_points",
    "C136_scene",
    "C136_steady"
   ],
   "note": "Points in exact arithmetic; pictures in exact or double arithmetic with the bilinear interpolation (order=1) on exact values."
  },
  {
   "property": "C137",
   "status": "proved",
   "theorems": [
    "C137_backward",
    "C137_forward",
    "C137_calibration",
    "C137_corrected",
    "C137_tie_refuted"
   ],
   "note": "Exact arithmetic. The fitting routines are oracles: any exact least-squares solver and any exact minimiser of quadratics."
  },
  {
   "property": "C138",
   "status": "proved",
   "theorems": [
    "C138_coefficients",
    "C138_determined",
    "C138_positions",
    "C138_corrected",
    "C138_targets",
    "C138_from_dots",
    "C138_threshold",
    "C138_grid"
   ],
   "note": "Exact arithmetic. np.linalg.lstsq, np.polyfit and scipy.optimize.minimize are oracles: any exact least-squares solver, any exact fit, any exact minimiser of a parabola."
  }
 ]
}