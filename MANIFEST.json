{
 "claims": [
  {
   "property": "C01",
   "status": "proved",
   "theorems": [
    "C01_shoebox_image_count"
   ],
   "note": ""
  },
  {
   "property": "C02",
   "status": "proved",
   "theorems": [
    "C02_shoebox_images_are_l1_ball"
   ],
   "note": ""
  },
  {
   "property": "C03",
   "status": "proved",
   "theorems": [
    "C03_shoebox_positions_are_mirror_images"
   ],
   "note": ""
  },
  {
   "property": "C04",
   "status": "proved",
   "theorems": [
    "C04_shoebox_attenuation",
    "C04_words_count_wall_crossings"
   ],
   "note": ""
  },
  {
   "property": "C05",
   "status": "proved",
   "theorems": [
    "C05_shoebox_departure_direction"
   ],
   "note": ""
  },
  {
   "property": "C06",
   "status": "proved",
   "theorems": [
    "C06_shoebox_passive",
    "C06_shoebox_monotone_in_absorption",
    "C06_shoebox_orders_nested"
   ],
   "note": ""
  },
  {
   "property": "C12",
   "status": "proved",
   "theorems": [
    "C12_ccw_is_signed_area",
    "C12_ccw_symmetry",
    "C12_intersection_test_symmetry",
    "C12_zero_tolerance_refuted"
   ],
   "note": "positive tolerance; with tolerance exactly 0 antisymmetry fails on collinear triples (C12_zero_tolerance_refuted)"
  },
  {
   "property": "C13",
   "status": "proved",
   "theorems": [
    "C13_intersection_2d_sound",
    "C13_intersection_2d_strict_iff",
    "C13_intersection_2d_none",
    "C13_intersection_2d_codes",
    "C13_point_on_segment_refuted"
   ],
   "note": "when the orientation test is not decided strictly the point may lie off the segment (C13_point_on_segment_refuted)"
  },
  {
   "property": "C14",
   "status": "proved",
   "theorems": [
    "C14_segment_plane_sound",
    "C14_segment_plane_complete",
    "C14_segment_plane_same_side"
   ],
   "note": ""
  },
  {
   "property": "C15",
   "status": "proved",
   "theorems": [
    "C15_area_is_shoelace",
    "C15_area_laws"
   ],
   "note": ""
  },
  {
   "property": "C16",
   "status": "proved",
   "theorems": [
    "C16_boundary",
    "C16_left_of_all_edges_is_inside",
    "C16_convex_polygon_decided",
    "C16_separated_is_outside",
    "C16_tolerance_band_refuted"
   ],
   "note": "exact outside the tolerance band; inside the band the answer is wrong on both sides (C16_tolerance_band_refuted)"
  },
  {
   "property": "C10",
   "status": "proved",
   "theorems": [
    "C10_reflect_is_mirror_image",
    "C10_reflect_involution",
    "C10_reflect_isometry",
    "C10_reflect_fixes_plane",
    "C10_codes"
   ],
   "note": ""
  },
  {
   "property": "C11",
   "status": "proved",
   "theorems": [
    "C11_reflection_preserves_length",
    "C11_reflection_reverses_normal_component_only",
    "C11_reflection_involution",
    "C11_reflected_point_distance"
   ],
   "note": ""
  },
  {
   "property": "C79",
   "status": "proved",
   "theorems": [
    "C79_wall2_normal",
    "C79_wall3_normal",
    "C79_shoebox_walls_3d",
    "C79_shoebox_walls_2d"
   ],
   "note": ""
  },
  {
   "property": "C80",
   "status": "proved",
   "theorems": [
    "C80_lambertian_sample",
    "C80_bounce_points_inward",
    "C80_lambertian_2d_refuted"
   ],
   "note": "3D walls; in 2D the basis used for scattering is never initialised (C80_lambertian_2d_refuted)"
  },
  {
   "property": "C17",
   "status": "proved",
   "theorems": [
    "C17_max_distance_exceeds_hull"
   ],
   "note": ""
  },
  {
   "property": "C18",
   "status": "proved",
   "theorems": [
    "C18_next_wall_hit_is_nearest",
    "C18_no_wall_in_hull_is_missed",
    "C18_hit_on_ray_and_plane",
    "C18_hit_in_front_refuted"
   ],
   "note": "intersections are those of the wall intersection test with its tolerance; the tolerance is relative to the segment, so a wall just behind the start can be reported (C18_hit_in_front_refuted)"
  },
  {
   "property": "C19",
   "status": "proved",
   "theorems": [
    "C19_shoebox_hit_sound",
    "C19_shoebox_hit_found",
    "C19_shoebox_index_3d",
    "C19_shoebox_index_2d_refuted"
   ],
   "note": "2D wall index is wrong in the code (C19_shoebox_index_2d_refuted)"
  },
  {
   "property": "C22",
   "status": "proved",
   "theorems": [
    "C22_ray_terminates",
    "C22_ray_energy_and_distance",
    "C22_energy_never_increases",
    "C22_ray_path"
   ],
   "note": ""
  },
  {
   "property": "C23",
   "status": "proved",
   "theorems": [
    "C23_specular_arrivals",
    "C23_specular_energy",
    "C23_scattered_arrivals",
    "C23_source_at_microphone_refuted"
   ],
   "note": "a microphone exactly at the source makes the code divide by zero (C23_source_at_microphone_refuted)"
  },
  {
   "property": "C07",
   "status": "proved",
   "theorems": [
    "C07_images_are_genuine"
   ],
   "note": "Over the arrays returned by the engine, for every list of walls with unit normals."
  },
  {
   "property": "C08",
   "status": "proved",
   "theorems": [
    "C08_images_are_exactly_the_visible_sequences"
   ],
   "note": "Exact characterisation, order and alignment; when nothing is visible the engine returns 0 and leaves the previous arrays, as the theorem states."
  },
  {
   "property": "C09",
   "status": "proved",
   "theorems": [
    "C09_visible_image_has_a_reflected_path"
   ],
   "note": "Exact length and mirror law when each point is on the inner side of the wall of its next reflection; tolerance bound otherwise (3D)."
  },
  {
   "property": "C20",
   "status": "proved",
   "theorems": [
    "C20_histogram_is_the_log",
    "C20_logging_succeeds",
    "C20_microphone_collects_arrivals",
    "C20_row_log_refuted"
   ],
   "note": "Every history of calls that does not trip an Eigen assertion; log_row trips one as soon as the table has two columns (C20_row_log_refuted)."
  },
  {
   "property": "C21",
   "status": "proved",
   "theorems": [
    "C21_growth_terminates_and_covers",
    "C21_zero_size_diverges"
   ],
   "note": ""
  },
  {
   "property": "C24",
   "status": "proved",
   "theorems": [
    "C24_rir_builder_in_bounds"
   ],
   "note": "Reals for floats, unbounded integers; tasks are sequences of loads and stores interleaved arbitrarily. lut_gran and num_threads at least 1."
  },
  {
   "property": "C25",
   "status": "proved",
   "theorems": [
    "C25_rir_builder_thread_independent",
    "C25_any_two_executions_agree"
   ],
   "note": "Exact arithmetic; every interleaving of the loads and stores of the tasks."
  },
  {
   "property": "C27",
   "status": "proved",
   "theorems": [
    "C27_delay_sum_is_overlap_add"
   ],
   "note": "Rows of irs have equal length (numpy array)."
  },
  {
   "property": "C28",
   "status": "proved",
   "theorems": [
    "C28_ism_sizes_are_accepted",
    "C28_ism_response"
   ],
   "note": "No directivities; the octave band filter is an arbitrary length-preserving function; exact arithmetic."
  },
  {
   "property": "C81",
   "status": "proved",
   "theorems": [
    "C81_fractional_delay_rows",
    "C81_unchecked_delay_refuted"
   ],
   "note": "The refuted part records that fractions outside [0,1] are not checked and read outside the table."
  },
  {
   "property": "C26",
   "status": "proved",
   "theorems": [
    "C26_fifo_exactly_once",
    "C26_destructor_drains",
    "C26_shutdown_terminates",
    "C26_no_lost_wakeup",
    "C26_no_task_accepted_after_stop"
   ],
   "note": "Sections under the mutex are atomic steps; tasks are assumed to return; spurious wake-ups included."
  },
  {
   "property": "C29",
   "status": "proved",
   "theorems": [
    "C29_simulate_sums_convolutions",
    "C29_callback_sees_contributions",
    "C29_source_without_signal_refuted",
    "C29_negative_delay_refuted"
   ],
   "note": "Non-empty signals with non-negative delays; the code intends to skip sources without a signal but raises (C29_source_without_signal_refuted), and negative delays wrap around (C29_negative_delay_refuted)."
  },
  {
   "property": "C82",
   "status": "proved",
   "theorems": [
    "C82_snr_is_honoured"
   ],
   "note": "The random draws are arbitrary numbers scaled by sigma; only the scale is a claim."
  },
  {
   "property": "C30",
   "status": "proved",
   "theorems": [
    "C30_image_source_room_is_current",
    "C30_ray_tracing_room_is_current",
    "C30_unset_air_absorption_refuted",
    "C30_source_added_after_compute_refuted",
    "C30_stale_histograms_refuted",
    "C30_old_bin_width_refuted",
    "C30_occluded_source_refuted",
    "C30_occluded_microphone_refuted"
   ],
   "note": "The engine's image source search, ray tracer and response builders are arbitrary functions of what they are given; six call orders in which the result does not correspond to the configuration are refuted."
  },
  {
   "property": "C31",
   "status": "proved",
   "theorems": [
    "C31_engine_and_room_agree",
    "C31_extrude_loses_microphones_refuted"
   ],
   "note": "For call sequences without extrude; extrude builds a new engine without the microphones (refuted)."
  },
  {
   "property": "C32",
   "status": "proved",
   "theorems": [
    "C32_counterclockwise_room",
    "C32_stored_counterclockwise",
    "C32_bad_input_rejected",
    "C32_clockwise_room",
    "C32_clockwise_materials_refuted"
   ],
   "note": "The refuted part: for clockwise corners the materials are not reversed with the corners."
  },
  {
   "property": "C33",
   "status": "proved",
   "theorems": [
    "C33_extrude_prism",
    "C33_from_corners_extruded",
    "C33_shoebox_volume",
    "C33_area_in_2d_refuted"
   ],
   "note": "Default extrusion direction; the refuted part: get_volume of a 2D room is two thirds of its area."
  },
  {
   "property": "C34",
   "status": "proved",
   "theorems": [
    "C34_shoebox_is_inside",
    "C34_other_lengths"
   ],
   "note": ""
  },
  {
   "property": "C41",
   "status": "proved",
   "theorems": [
    "C41_buffer_is_a_stack",
    "C41_flush_zero_fails",
    "C41_flush_zero_refuted",
    "C41_empty_buffer_refuted"
   ],
   "note": "Flushes of at least one element; flush(0) raises on a non-empty buffer (refuted)."
  },
  {
   "property": "C42",
   "status": "proved",
   "theorems": [
    "C42_powers",
    "C42_descending_range_refuted"
   ],
   "note": ""
  },
  {
   "property": "C43",
   "status": "proved",
   "theorems": [
    "C43_flips_are_never_reused",
    "C43_returned_flips_change_refuted"
   ],
   "note": "Values at the time of return; the returned array is a view that a later request overwrites (refuted)."
  },
  {
   "property": "C44",
   "status": "proved",
   "theorems": [
    "C44_nlms_update",
    "C44_nlms_run",
    "C44_silence_ruins_the_weights",
    "C44_silence_refuted"
   ],
   "note": "Windows must not be all zero; otherwise the weights become NaN (refuted)."
  },
  {
   "property": "C45",
   "status": "proved",
   "theorems": [
    "C45_block_lms",
    "C45_block_one_is_nlms",
    "C45_length_one_refuted"
   ],
   "note": "Lengths from 2; length 1 raises (refuted)."
  },
  {
   "property": "C46",
   "status": "proved",
   "theorems": [
    "C46_rls_least_squares",
    "C46_rls_inverse",
    "C46_block_rls",
    "C46_block_equals_samplewise"
   ],
   "note": "Positive forgetting factor and regularisation, real arithmetic; numpy's solve is assumed to solve nonsingular systems."
  },
  {
   "property": "C47",
   "status": "proved",
   "theorems": [
    "C47_toeplitz",
    "C47_toeplitz_rejects",
    "C47_hankel",
    "C47_autocorr"
   ],
   "note": "numpy's rfft/irfft are modelled as the DFT sums; the inversion and convolution theorems are proved, not assumed."
  },
  {
   "property": "C48",
   "status": "proved",
   "theorems": [
    "C48_optimal",
    "C48_optimal_symmetric",
    "C48_strang",
    "C48_strang_one_refuted"
   ],
   "note": "Strang's approximation raises for a 1x1 matrix (refuted)."
  },
  {
   "property": "C35",
   "status": "proved",
   "theorems": [
    "C35_streaming",
    "C35_chunking",
    "C35_batch",
    "C35_batch_covers"
   ],
   "note": ""
  },
  {
   "property": "C36",
   "status": "proved",
   "theorems": [
    "C36_synthesis"
   ],
   "note": ""
  },
  {
   "property": "C37",
   "status": "proved",
   "theorems": [
    "C37_streaming_reconstruction",
    "C37_batch_reconstruction"
   ],
   "note": ""
  },
  {
   "property": "C38",
   "status": "proved",
   "theorems": [
    "C38_synthesis_window",
    "C38_defined",
    "C38_reconstruction"
   ],
   "note": ""
  },
  {
   "property": "C39",
   "status": "proved",
   "theorems": [
    "C39_padding_once",
    "C39_padding_accumulates",
    "C39_padding_twice_refuted",
    "C39_reset_refuted"
   ],
   "note": "statement amended: padding twice is refuted"
  },
  {
   "property": "C40",
   "status": "proved",
   "theorems": [
    "C40_dft_without_window",
    "C40_dft_with_window",
    "C40_dft_window_refuted",
    "C40_process_fixed",
    "C40_process_refuted"
   ],
   "note": "statement amended: in-place windowing is refuted as a non-modification claim"
  },
  {
   "property": "C83",
   "status": "proved",
   "theorems": [
    "C83_filtering",
    "C83_front_padding_refuted"
   ],
   "note": "front padding counted by set_filter's check does not help: refuted"
  },
  {
   "property": "C49",
   "status": "proved",
   "theorems": [
    "C49_mel_inverse",
    "C49_mel_increasing",
    "C49_invmel_increasing"
   ],
   "note": ""
  },
  {
   "property": "C50",
   "status": "proved",
   "theorems": [
    "C50_round_trip",
    "C50_rejects",
    "C50_order_plane",
    "C50_plane_refuted",
    "C50_order_space_refuted"
   ],
   "note": "statement amended: 2D round trip and 3D order refuted"
  },
  {
   "property": "C51",
   "status": "proved",
   "theorems": [
    "C51_eyring_below_sabine",
    "C51_decreasing",
    "C51_air_refuted",
    "C51_air_negative_refuted"
   ],
   "note": "statement amended: refuted with air absorption"
  },
  {
   "property": "C55",
   "status": "proved",
   "theorems": [
    "C55_from_speed",
    "C55_default_temperature",
    "C55_constants"
   ],
   "note": ""
  },
  {
   "property": "C56",
   "status": "proved",
   "theorems": [
    "C56_found",
    "C56_heading"
   ],
   "note": ""
  },
  {
   "property": "C57",
   "status": "proved",
   "theorems": [
    "C57_rectangular",
    "C57_shared",
    "C57_flat_value",
    "C57_repeat",
    "C57_defined",
    "C57_range",
    "C57_node",
    "C57_between",
    "C57_init",
    "C57_caller_dict_refuted",
    "C57_unchecked_refuted"
   ],
   "note": ""
  },
  {
   "property": "C52",
   "status": "proved",
   "theorems": [
    "C52_tile",
    "C52_count",
    "C52_nyquist",
    "C52_centers_increasing"
   ],
   "note": ""
  },
  {
   "property": "C53",
   "status": "proved",
   "theorems": [
    "C53_energy",
    "C53_at_least_one",
    "C53_wide",
    "C53_default",
    "C53_no_overlap",
    "C53_default_refuted"
   ],
   "note": "statement amended: refuted for the default bank with 512 points"
  },
  {
   "property": "C54",
   "status": "proved",
   "theorems": [
    "C54_sum",
    "C54_no_dc",
    "C54_no_dc_refuted"
   ],
   "note": "statement amended: refuted without keep_dc"
  },
  {
   "property": "C84",
   "status": "proved",
   "theorems": [
    "C84_reconstruct",
    "C84_default",
    "C84_energy",
    "C84_energy_refuted",
    "C84_short_refuted"
   ],
   "note": ""
  },
  {
   "property": "C85",
   "status": "proved",
   "theorems": [
    "C85_factory_sum",
    "C85_energy_refuted"
   ],
   "note": "energy() returns one value per sample instead of per band"
  },
  {
   "property": "C58",
   "status": "proved",
   "theorems": [
    "C58_convmtx"
   ],
   "note": ""
  },
  {
   "property": "C59",
   "status": "proved",
   "theorems": [
    "C59_sound",
    "C59_defined",
    "C59_real",
    "C59_posdef",
    "C59_complex_refuted"
   ],
   "note": "statement amended for complex rows"
  },
  {
   "property": "C60",
   "status": "proved",
   "theorems": [
    "C60_goertzel",
    "C60_dft"
   ],
   "note": ""
  },
  {
   "property": "C61",
   "status": "proved",
   "theorems": [
    "C61_no_overflow",
    "C61_round_trip",
    "C61_lossless_refuted",
    "C61_unsigned_refuted",
    "C61_clip",
    "C61_normalize",
    "C61_silence_refuted"
   ],
   "note": ""
  },
  {
   "property": "C62",
   "status": "proved",
   "theorems": [
    "C62_bank",
    "C62_shift"
   ],
   "note": ""
  },
  {
   "property": "C63",
   "status": "proved",
   "theorems": [
    "C63_autocorr",
    "C63_long_lag_refuted"
   ],
   "note": ""
  },
  {
   "property": "C65",
   "status": "proved",
   "theorems": [
    "C65_correlate",
    "C65_single_sample_refuted",
    "C65_tdoa",
    "C65_silence_refuted",
    "C65_time_align",
    "C65_aligned"
   ],
   "note": "exact real arithmetic, one sample interpolation factor 1"
  },
  {
   "property": "C86",
   "status": "proved",
   "theorems": [
    "C86_yule_walker",
    "C86_optimal",
    "C86_long_refuted"
   ],
   "note": ""
  },
  {
   "property": "C66",
   "status": "proved",
   "theorems": [
    "C66_circle",
    "C66_global",
    "C66_sphere",
    "C66_constant_refuted",
    "C66_zero_refuted"
   ],
   "note": ""
  },
  {
   "property": "C87",
   "status": "proved",
   "theorems": [
    "C87_peaks",
    "C87_distance"
   ],
   "note": "NaN handling not modelled"
  },
  {
   "property": "C67",
   "status": "proved",
   "theorems": [
    "C67_radius",
    "C67_back",
    "C67_forth",
    "C67_great_circle",
    "C67_triangle",
    "C67_zero"
   ],
   "note": "signed zeros not modelled"
  },
  {
   "property": "C68",
   "status": "proved",
   "theorems": [
    "C68_fibonacci",
    "C68_circle_grid",
    "C68_sphere_grid"
   ],
   "note": ""
  },
  {
   "property": "C69",
   "status": "proved",
   "theorems": [
    "C69_shortest",
    "C69_metric",
    "C69_radius_refuted"
   ],
   "note": ""
  },
  {
   "property": "C88",
   "status": "proved",
   "theorems": [
    "C88_matching",
    "C88_single_refuted"
   ],
   "note": ""
  },
  {
   "property": "C71",
   "status": "proved",
   "theorems": [
    "C71_consistent",
    "C71_history",
    "C71_append",
    "C71_directivity",
    "C71_record",
    "C71_center_refuted",
    "C71_list_refuted",
    "C71_resample_refuted"
   ],
   "note": "sharing of arrays with the caller not modelled"
  },
  {
   "property": "C72",
   "status": "proved",
   "theorems": [
    "C72_linear",
    "C72_circular",
    "C72_square",
    "C72_spiral",
    "C72_poisson",
    "C72_outward",
    "C72_degrees_refuted"
   ],
   "note": ""
  },
  {
   "property": "C73",
   "status": "proved",
   "theorems": [
    "C73_far_field",
    "C73_delay_and_sum",
    "C73_far_distance",
    "C73_max_sinr_unit",
    "C73_max_sinr",
    "C73_one_forcing",
    "C73_mvdr",
    "C73_perceptual",
    "C73_causal_refuted",
    "C73_far_field_gain_refuted",
    "C73_attenuation_refuted",
    "C73_far_attenuation_refuted",
    "C73_far_images_refuted",
    "C73_no_noise_refuted",
    "C73_rcond_refuted"
   ],
   "note": "pinv by the Penrose equations and the Cholesky solvers by the equation they solve; rake_max_udr (eigenvectors) and the *_filters designs that raise (float slice) not modelled"
  },
  {
   "property": "C89",
   "status": "proved",
   "theorems": [
    "C89_filters",
    "C89_weights",
    "C89_round_trip",
    "C89_process",
    "C89_latest",
    "C89_add",
    "C89_nyquist_refuted",
    "C89_stale_refuted",
    "C89_add_refuted"
   ],
   "note": "branch Lg < N (least squares) and the STFT-based FD processing of process() not modelled here; the STFT itself is C40"
  },
  {
   "property": "C74",
   "status": "proved",
   "theorems": [
    "C74_make",
    "C74_pattern",
    "C74_angles",
    "C74_range",
    "C74_symmetric",
    "C74_energy",
    "C74_pdf",
    "C74_func",
    "C74_rays",
    "C74_func_in_place_refuted",
    "C74_magnitude_refuted",
    "C74_orientation_refuted"
   ],
   "note": ""
  },
  {
   "property": "C75",
   "status": "proved",
   "theorems": [
    "C75_accepts",
    "C75_rotation",
    "C75_order"
   ],
   "note": ""
  },
  {
   "property": "C76",
   "status": "proved",
   "theorems": [
    "C76_samples",
    "C76_efficiency",
    "C76_terminates",
    "C76_envelope",
    "C76_cardioid",
    "C76_silent_refuted",
    "C76_zero_refuted",
    "C76_gain_refuted"
   ],
   "note": "generators are arbitrary streams; probabilities are lengths of intervals of the uniform number"
  },
  {
   "property": "C77",
   "status": "proved",
   "theorems": [
    "C77_uniform",
    "C77_power",
    "C77_unit_refuted",
    "C77_generator_refuted"
   ],
   "note": "beta and normal draws are arguments"
  },
  {
   "property": "C78",
   "status": "proved",
   "theorems": [
    "C78_match",
    "C78_counts",
    "C78_filter",
    "C78_unhashable_refuted"
   ],
   "note": "attribute values with decidable equality (no NaN)"
  },
  {
   "property": "C90",
   "status": "proved",
   "theorems": [
    "C90_reproducible",
    "C90_separate",
    "C90_libroom_refuted"
   ],
   "note": "generators are abstract; libroom's generator is represented by its seed/state number"
  },
  {
   "property": "C91",
   "status": "proved",
   "theorems": [
    "C91_cosine",
    "C91_cosine_laws",
    "C91_distance",
    "C91_distance_zero"
   ],
   "note": ""
  },
  {
   "property": "C92",
   "status": "proved",
   "theorems": [
    "C92_anchors",
    "C92_interp",
    "C92_bounds",
    "C92_tail",
    "C92_tail_refuted",
    "C92_single_refuted",
    "C92_small_bins_refuted"
   ],
   "note": "interp1d is modelled as linear interpolation"
  },
  {
   "property": "C93",
   "status": "proved",
   "theorems": [
    "C93_times",
    "C93_ends",
    "C93_default_start",
    "C93_rate_refuted"
   ],
   "note": "the uniform draws are an arbitrary stream in (0,1)"
  },
  {
   "property": "C95",
   "status": "proved",
   "theorems": [
    "C95_no_energy",
    "C95_runs",
    "C95_one_band",
    "C95_causal",
    "C95_bands",
    "C95_air",
    "C95_scale"
   ],
   "note": "the octave filter bank is any bank preserving lengths; the theorems on single samples need at least two bins (one bin is C92_single_refuted)"
  },
  {
   "property": "C94",
   "status": "proved",
   "theorems": [
    "C94_choice",
    "C94_sequence",
    "C94_places",
    "C94_unit_energy",
    "C94_direction_refuted"
   ],
   "note": "draws are arguments; probabilities are lengths of intervals of the uniform draw; fftconvolve is exact convolution"
  },
  {
   "property": "C97",
   "status": "proved",
   "theorems": [
    "C97_nearest",
    "C97_strongest_refuted",
    "C97_failed_refuted",
    "C97_stale_refuted",
    "C97_list_refuted"
   ],
   "note": "argsort is any sorting permutation"
  },
  {
   "property": "C98",
   "status": "proved",
   "theorems": [
    "C98_up_to_order",
    "C98_all",
    "C98_nearest",
    "C98_flat_refuted",
    "C98_damping_refuted",
    "C98_wall_sequence_refuted"
   ],
   "note": "argsort is any sorting permutation; the loop of wall_sequence is cut at any number of turns"
  },
  {
   "property": "C99",
   "status": "proved",
   "theorems": [
    "C99_matrix",
    "C99_truncation"
   ],
   "note": "one frequency band, no microphone at an image"
  },
  {
   "property": "C100",
   "status": "proved",
   "theorems": [
    "C100_table",
    "C100_far",
    "C100_odd",
    "C100_bins",
    "C100_lists_refuted",
    "C100_fewer_refuted",
    "C100_near_refuted"
   ],
   "note": "indices not negative, slices without step"
  },
  {
   "property": "C101",
   "status": "proved",
   "theorems": [
    "C101_power",
    "C101_range",
    "C101_plane_wave",
    "C101_circle",
    "C101_sphere"
   ],
   "note": "exact arithmetic; the plane wave has at least the magnitude 1e-14 that the code treats as zero"
  },
  {
   "property": "C102",
   "status": "proved",
   "theorems": [
    "C102_spectrum",
    "C102_sources",
    "C102_value",
    "C102_normalised",
    "C102_normalised_refuted",
    "C102_zero_refuted"
   ],
   "note": "eigh is any orthonormal decomposition with ascending eigenvalues"
  },
  {
   "property": "C103",
   "status": "proved",
   "theorems": [
    "C103_given",
    "C103_range",
    "C103_hz_refuted"
   ],
   "note": ""
  },
  {
   "property": "C104",
   "status": "proved",
   "theorems": [
    "C104_even_odd",
    "C104_moving",
    "C104_separated",
    "C104_convex",
    "C104_border",
    "C104_unlucky_refuted",
    "C104_far_refuted"
   ],
   "note": "two dimensional rooms; the loop of three dimensional rooms is modelled too, its theorem is not stated"
  },
  {
   "property": "C105",
   "status": "proved",
   "theorems": [
    "C105_sabine",
    "C105_sabine_one",
    "C105_between",
    "C105_eyring_uniform",
    "C105_eyring",
    "C105_air_refuted",
    "C105_eyring_refuted",
    "C105_eyring_air_refuted"
   ],
   "note": ""
  },
  {
   "property": "C106",
   "status": "proved",
   "theorems": [
    "C106_gain",
    "C106_zeros_after",
    "C106_zeros_before",
    "C106_rate"
   ],
   "note": "the rate for the fit in the logarithmic domain"
  },
  {
   "property": "C107",
   "status": "proved",
   "theorems": [
    "C107_between",
    "C107_nonneg",
    "C107_exact",
    "C107_impulse_refuted",
    "C107_last_refuted",
    "C107_infinite_refuted"
   ],
   "note": "bounds for the logarithmic domain; for the linear domain the fit is assumed to find an exponential through all points if there is one"
  },
  {
   "property": "C109",
   "status": "proved",
   "theorems": [
    "C109_minimal",
    "C109_exact",
    "C109_scale",
    "C109_clip_up",
    "C109_clip_down",
    "C109_zero_gain_refuted"
   ],
   "note": "exact complex arithmetic"
  },
  {
   "property": "C110",
   "status": "proved",
   "theorems": [
    "C110_output",
    "C110_rejects",
    "C110_iteration",
    "C110_background"
   ],
   "note": "exact complex arithmetic; numpy.linalg.solve is any function returning solutions of regular systems; init_eig is covered by arbitrary initial matrices"
  },
  {
   "property": "C111",
   "status": "proved",
   "theorems": [
    "C111_determinant",
    "C111_decreasing",
    "C111_best_row"
   ],
   "note": "determined case; exact complex arithmetic; the contrasts are those of the paper above the floor eps of the weights and their quadratic continuation below"
  },
  {
   "property": "C112",
   "status": "proved",
   "theorems": [
    "C112_rejects",
    "C112_output",
    "C112_source_step",
    "C112_first_iteration",
    "C112_filters_refuted"
   ],
   "note": "exact arithmetic; the descent is for a source with up-to-date powers and spectra, which holds throughout the first iteration"
  },
  {
   "property": "C113",
   "status": "proved",
   "theorems": [
    "C113_sum",
    "C113_sum2",
    "C113_mic",
    "C113_mic2",
    "C113_shares",
    "C113_shares2",
    "C113_W0_refuted",
    "C113_singular_refuted"
   ],
   "note": "exact arithmetic; divisions by zero are failures"
  },
  {
   "property": "C115",
   "status": "proved",
   "theorems": [
    "C115_gain",
    "C115_range",
    "C115_scale",
    "C115_apply",
    "C115_finite",
    "C115_transparent",
    "C115_silent_refuted"
   ],
   "note": "exact arithmetic; NaN as failure"
  },
  {
   "property": "C116",
   "status": "proved",
   "theorems": [
    "C116_gain",
    "C116_apply",
    "C116_level",
    "C116_quiet",
    "C116_inplace_refuted",
    "C116_frame_refuted",
    "C116_level_refuted"
   ],
   "note": "exact arithmetic; divisions by zero are failures"
  },
  {
   "property": "C117",
   "status": "proved",
   "theorems": [
    "C117_cov",
    "C117_psd",
    "C117_stream",
    "C117_apply",
    "C117_filter",
    "C117_rejects",
    "C117_alias",
    "C117_mute",
    "C117_count_refuted"
   ],
   "note": "exact arithmetic; lstsq, eig, argsort and pinv are arbitrary functions (eig returns real eigenpairs or fails, argsort sorts, pinv inverts regular matrices); the gain equation is for a regular matrix of eigenvectors"
  },
  {
   "property": "C118",
   "status": "proved",
   "theorems": [
    "C118_forward",
    "C118_possible",
    "C118_loglikelihood",
    "C118_alive",
    "C118_posterior",
    "C118_full",
    "C118_left_right",
    "C118_other",
    "C118_zeros",
    "C118_rows",
    "C118_generate",
    "C118_retrain_refuted"
   ],
   "note": "exact arithmetic; a division by zero (NaN) is a failure; diagonal Gaussian emissions"
  },
  {
   "property": "C119",
   "status": "proved",
   "theorems": [
    "C119_step",
    "C119_chain",
    "C119_fit",
    "C119_terminates",
    "C119_rare_refuted"
   ],
   "note": "exact arithmetic; CircularGaussianEmission (diagonal covariance); the random initial emission and the singularity threshold of scipy are not modelled"
  },
  {
   "property": "C120",
   "status": "proved",
   "theorems": [
    "C120_improves",
    "C120_monotone",
    "C120_tail",
    "C120_start",
    "C120_phases",
    "C120_next",
    "C120_fixed_point",
    "C120_true_phase",
    "C120_one_frame",
    "C120_no_overlap",
    "C120_silence",
    "C120_true_phase_refuted",
    "C120_ini_refuted"
   ],
   "note": "exact arithmetic, a division by zero (NaN) is a failure; default stft_kwargs; at least two overlapping frames that span fft_size-hop samples; the callback has no effect"
  },
  {
   "property": "C108",
   "status": "proved",
   "theorems": [
    "C108_convolve",
    "C108_convolve_shapes",
    "C108_full_band",
    "C108_octave_bands",
    "C108_unit_impulses",
    "C108_flat_gains",
    "C108_octave_directivity_refuted",
    "C108_octave_mixed"
   ],
   "note": "odd filter lengths, three dimensions, exact real arithmetic; the octave-band synthesis filter is any filter of n_fft taps"
  },
  {
   "property": "C96",
   "status": "proved",
   "theorems": [
    "C96_slice",
    "C96_items",
    "C96_make",
    "C96_directivity_refuted",
    "C96_generators_refuted",
    "C96_integer_refuted",
    "C96_engine_refuted",
    "C96_optional_refuted"
   ],
   "note": "slices without a step; exact coordinates (the code stores single precision)"
  },
  {
   "property": "C121",
   "status": "proved",
   "theorems": [
    "C121_edm",
    "C121_label",
    "C121_unknown_label",
    "C121_default_labels",
    "C121_one_label_per_point",
    "C121_normalize_2d",
    "C121_normalize_3d",
    "C121_normalize_defined",
    "C121_normalize_axis_refuted",
    "C121_center",
    "C121_center_unknown",
    "C121_align",
    "C121_align_overwrites",
    "C121_align_axis_refuted",
    "C121_align_axis_kind",
    "C121_correct",
    "C121_doa",
    "C121_flatten",
    "C121_flatten_small"
   ],
   "note": "exact real arithmetic; the svd is any left singular basis; sharing of arrays with the caller is not modelled"
  },
  {
   "property": "C122",
   "status": "proved",
   "theorems": [
    "C122_mds",
    "C122_mds_repeated_refuted",
    "C122_square",
    "C122_tri_refuted",
    "C122_single_point",
    "C122_grid",
    "C122_line_search",
    "C122_few_points_refuted"
   ],
   "note": "exact real arithmetic; eig and eigh are any decompositions with unit eigenvectors forming a basis; argsort any sorting order"
  },
  {
   "property": "C114",
   "status": "proved",
   "theorems": [
    "C114_fit",
    "C114_finite",
    "C114_fit2",
    "C114_accelerate",
    "C114_normalise",
    "C114_normalise2"
   ],
   "note": "exact arithmetic; fastmnmf2's joint update of bases and activations is not claimed to descend"
  },
  {
   "property": "C123",
   "status": "proved",
   "theorems": [
    "C123_deconvolve",
    "C123_least_squares",
    "C123_zero_bin_refuted",
    "C123_tdoa_wrap",
    "C123_tdoa",
    "C123_tdoa_interp",
    "C123_tdoa_range",
    "C123_sign_refuted",
    "C123_last_lag_refuted",
    "C123_interp_refuted",
    "C123_zero_mean_refuted",
    "C123_locate",
    "C123_planar",
    "C123_planar_refuted",
    "C123_equidistant_refuted"
   ],
   "note": "exact real arithmetic; lstsq is any minimum-norm least-squares solution; delays with interpolation are proved for the phase transform only"
  },
  {
   "property": "C124",
   "status": "proved",
   "theorems": [
    "C124_buffer",
    "C124_total",
    "C124_bands",
    "C124_fit",
    "C124_errors",
    "C124_robust",
    "C124_one_tap"
   ],
   "note": "exact complex arithmetic; storing in complex64 not modelled"
  },
  {
   "property": "C125",
   "status": "proved",
   "theorems": [
    "C125_halves",
    "C125_deviation",
    "C125_order",
    "C125_affine",
    "C125_affine_interval",
    "C125_small",
    "C125_coverage",
    "C125_large",
    "C125_sign_refuted",
    "C125_boundary_refuted"
   ],
   "note": "exact arithmetic; of the normal quantile only positivity and Chebyshev's bound are used, so nothing is claimed on the coverage for large samples"
  },
  {
   "property": "C126",
   "status": "proved",
   "theorems": [
    "C126_mse",
    "C126_snr",
    "C126_columns_refuted",
    "C126_range",
    "C126_gain",
    "C126_rate_refuted",
    "C126_silence_refuted",
    "C126_axis_refuted"
   ],
   "note": "exact real arithmetic; NaN and infinity count as failures"
  },
  {
   "property": "C64",
   "status": "proved",
   "theorems": [
    "C64_overlap",
    "C64_symmetric",
    "C64_gaussian",
    "C64_bohman",
    "C64_range",
    "C64_triang_range",
    "C64_climbs",
    "C64_halves",
    "C64_triang_odd_refuted",
    "C64_mdct_refuted",
    "C64_bart_refuted",
    "C64_blackman_refuted",
    "C64_bart_hann_refuted",
    "C64_harris_refuted",
    "C64_single_refuted"
   ],
   "note": ""
  },
  {
   "property": "C70",
   "status": "proved",
   "theorems": [
    "C70_count",
    "C70_explicit",
    "C70_forgets_refuted"
   ],
   "note": "statement amended: refuted once a spectrum has fewer peaks"
  },
  {
   "property": "C127",
   "status": "proved",
   "theorems": [
    "C127_melfilterbank",
    "C127_empty_refuted"
   ],
   "note": "exact real arithmetic"
  },
  {
   "property": "C128",
   "status": "proved",
   "theorems": [
    "C128_critical",
    "C128_bins",
    "C128_binning",
    "C128_dct_refuted",
    "C128_empty_refuted",
    "C128_sum_refuted"
   ],
   "note": "exact real arithmetic; rounding to even as numpy does"
  },
  {
   "property": "C129",
   "status": "proved",
   "theorems": [
    "C129_prony",
    "C129_prony_exact",
    "C129_shanks",
    "C129_truncated_refuted"
   ],
   "note": "exact real arithmetic; lstsq is any minimum norm least squares solution"
  },
  {
   "property": "C130",
   "status": "proved",
   "theorems": [
    "C130_magnitude",
    "C130_minimum_phase",
    "C130_even",
    "C130_defined",
    "C130_even_refuted",
    "C130_nyquist_refuted"
   ],
   "note": "exact arithmetic; scipy.signal.hilbert by its formula; one response at a time; a logarithm of zero counts as failure"
  },
  {
   "property": "C131",
   "status": "proved",
   "theorems": [
    "C131_ratios",
    "C131_max_sinr",
    "C131_max_udr",
    "C131_max_udr_filters",
    "C131_order_refuted",
    "C131_late_refuted"
   ],
   "note": "exact arithmetic; cholesky, inv, eig, eigh and pinv by their contracts; steering with attenuation and in the near field, as snr and udr use it"
  },
  {
   "property": "C132",
   "status": "proved",
   "theorems": [
    "C132_complete",
    "C132_sound",
    "C132_weights",
    "C132_empty_refuted"
   ],
   "note": "exact arithmetic; numpy.allclose with its default tolerances"
  },
  {
   "property": "C133",
   "status": "proved",
   "theorems": [
    "C133_few",
    "C133_three",
    "C133_circle",
    "C133_narrow",
    "C133_axes_refuted",
    "C133_arc_refuted"
   ],
   "note": "exact arithmetic; SphericalVoronoi is used as given when it does not raise; the SVD is assumed to give unit coordinates in the plane of the circle; argsort any sorting permutation"
  },
  {
   "property": "C134",
   "status": "proved",
   "theorems": [
    "C134_order",
    "C134_value",
    "C134_kernel",
    "C134_first_order",
    "C134_phase_refuted",
    "C134_magnitude_refuted"
   ],
   "note": "exact arithmetic; scipy's sph_harm_y by its closed form (Rodrigues)"
  },
  {
   "property": "C135",
   "status": "proved",
   "theorems": [
    "C135_linear",
    "C135_exact",
    "C135_least",
    "C135_weights_refuted"
   ],
   "note": "exact complex arithmetic; pinv by the conditions of Penrose when no singular value is cut off (condition number below 100); responses as an array of two dimensions"
  },
  {
   "property": "C136",
   "status": "proved",
   "theorems": [
    "C136_nearest",
    "C136_exact",
    "C136_orientation",
    "C136_pdf",
    "C136_accept",
    "C136_angles",
    "C136_rays",
    "C136_ids",
    "C136_mic",
    "C136_source",
    "C136_cache",
    "C136_colatitude_refuted"
   ],
   "note": "exact arithmetic; the nearest neighbour search by its contract (a nearest point); energies in bands, areas and interpolation as arguments"
  },
  {
   "property": "C137",
   "status": "proved",
   "theorems": [
    "C137_uniform",
    "C137_samples",
    "C137_mode",
    "C137_total",
    "C137_negative_refuted"
   ],
   "note": "exact arithmetic; the gamma function by its recurrence and its values at 1 and 1/2; the beta generator by its density"
  },
  {
   "property": "C138",
   "status": "proved",
   "theorems": [
    "C138_histogram",
    "C138_equal",
    "C138_mass_refuted",
    "C138_empty_refuted",
    "C138_neighbors",
    "C138_distances"
   ],
   "note": "exact arithmetic; nearest neighbour search, areas and convex hull as arguments"
  },
  {
   "property": "C139",
   "status": "proved",
   "theorems": [
    "C139_output",
    "C139_stationary",
    "C139_swap",
    "C139_padding_refuted"
   ],
   "note": "exact arithmetic; fftconvolve as convolution; blocks not shorter than the filters"
  },
  {
   "property": "C140",
   "status": "proved",
   "theorems": [
    "C140_output",
    "C140_auxiva",
    "C140_sparir",
    "C140_gradient",
    "C140_conjugate",
    "C140_silent_refuted",
    "C140_gradient_refuted",
    "C140_soft_refuted"
   ],
   "note": "exact arithmetic; numpy.linalg.solve as an argument; C140_auxiva for the Laplace model, or the Gauss model with all bins; divisions by zero are failures"
  },
  {
   "property": "C141",
   "status": "proved",
   "theorems": [
    "C141_anechoic",
    "C141_response",
    "C141_random",
    "C141_random_delay",
    "C141_outside",
    "C141_bbox",
    "C141_snr",
    "C141_direct_refuted",
    "C141_snr_source_refuted",
    "C141_snr_scale_refuted"
   ],
   "note": "exact arithmetic; draws of the random generator as arguments; responses without air absorption; images in the shoebox model of C01 to C04"
  },
  {
   "property": "C142",
   "status": "proved",
   "theorems": [
    "C142_walls",
    "C142_walls_exact",
    "C142_unobstructed",
    "C142_tolerance_refuted"
   ],
   "note": "exact arithmetic; scipy's ConvexHull as an argument, of which is assumed that its facets have corners among the points and support them; C142_walls_exact and C142_unobstructed with a margin"
  },
  {
   "property": "C143",
   "status": "proved",
   "theorems": [
    "C143_window",
    "C143_exponential",
    "C143_linear",
    "C143_options",
    "C143_band",
    "C143_tone_refuted",
    "C143_fade_refuted",
    "C143_fraction_refuted"
   ],
   "note": "exact arithmetic"
  },
  {
   "property": "C144",
   "status": "proved",
   "theorems": [
    "C144_wiener",
    "C144_undefined",
    "C144_plain",
    "C144_recover",
    "C144_noise_refuted"
   ],
   "note": "exact arithmetic; numpy.linalg.lstsq is any minimiser, shown to exist"
  },
  {
   "property": "C146",
   "status": "proved",
   "theorems": [
    "C146_focus",
    "C146_cssm",
    "C146_waves",
    "C146_dropped_refuted"
   ],
   "note": "exact arithmetic; the peak search, numpy.linalg.inv, eigh and svd are arguments"
  },
  {
   "property": "C147",
   "status": "proved",
   "theorems": [
    "C147_exact",
    "C147_sources",
    "C147_bins_refuted"
   ],
   "note": "exact arithmetic; numpy.argmax, eigh and the last of svdvals are arguments"
  },
  {
   "property": "C145",
   "status": "proved",
   "theorems": [
    "C145_bins",
    "C145_rays",
    "C145_engine",
    "C145_calls",
    "C145_short_bin_refuted",
    "C145_small_room_refuted"
   ],
   "note": "exact arithmetic; the volume is an argument"
  },
  {
   "property": "C149",
   "status": "proved",
   "theorems": [
    "C149_engine",
    "C149_histograms",
    "C149_rir",
    "C149_add",
    "C149_trees",
    "C149_bins_refuted",
    "C149_source_refuted",
    "C149_array_refuted",
    "C149_trees_refuted"
   ],
   "note": "exact arithmetic; the hits of the rays, the part from images and the synthesis of the part from rays are arguments (they are the subject of other claims); as worded the claim needs the microphones to be added after the last change of bins or speed and before the first ray tracing: the refuted theorems show what happens otherwise"
  },
  {
   "property": "C148",
   "status": "proved",
   "theorems": [
    "C148_frames",
    "C148_visibility",
    "C148_mapping",
    "C148_expand",
    "C148_convolution",
    "C148_search",
    "C148_fit",
    "C148_zero",
    "C148_locations",
    "C148_cache_refuted"
   ],
   "note": "exact arithmetic; linalg.solve, linalg.inv, np.roots and the Bessel functions are arguments; that the search reaches error zero on exact measurements is not claimed"
  },
  {
   "property": "C150",
   "status": "proved",
   "theorems": [
    "C150_channels",
    "C150_one_shot",
    "C150_filter_refuted",
    "C150_column_refuted",
    "C150_short_refuted"
   ],
   "note": "exact arithmetic, numpy back end; the mono object is that of C35 to C41; filters with one axis, signals with one column and signals that fit in one frame are excluded by what the refuted theorems show"
  },
  {
   "property": "C151",
   "status": "proved",
   "theorems": [
    "C151_density",
    "C151_diagonal",
    "C151_prob",
    "C151_update",
    "C151_span",
    "C151_step",
    "C151_train",
    "C151_initial",
    "C151_singular_refuted"
   ],
   "note": "exact arithmetic; scipy's multivariate_normal modelled through the eigenvectors of the covariance, with the singularity threshold at zero; the stopping rule of fit is that of C119; transitions out of almost never left states excluded as in C119; an update on frames in a hyperplane makes the next iteration raise (C151_singular_refuted)"
  },
  {
   "property": "C152",
   "status": "proved",
   "theorems": [
    "C152_linear",
    "C152_shapes",
    "C152_between",
    "C152_impulse",
    "C152_minimum_phase",
    "C152_centre",
    "C152_filters",
    "C152_leak_refuted",
    "C152_polarity_refuted",
    "C152_shift",
    "C152_early_refuted"
   ],
   "note": "exact arithmetic; a user expects bands that sum to the signal, amplitudes that keep their sign and arrivals at the time they travel: with min_phase the bands sum to 1.02 at zero frequency (C152_leak_refuted) and the sign of the amplitudes is lost (C152_polarity_refuted); without it and with even n_fft all arrivals come one sample early (C152_shift, C152_early_refuted)"
  },
  {
   "property": "C153",
   "status": "proved",
   "theorems": [
    "C153_rms",
    "C153_normalize_pwr",
    "C153_dB",
    "C153_noisy",
    "C153_returns",
    "C153_small_offset",
    "C153_offset_refuted",
    "C153_range_refuted",
    "C153_untouched_refuted"
   ],
   "note": "exact arithmetic, signal and noise with the same number of channels; the documentation also promises an offset before the signal, a noisy signal between -1 and 1 and an untouched clean signal: an offset of a sample or more always raises (C153_offset_refuted), the mean is removed after the normalisation so that the noisy signal can leave the range (C153_range_refuted), and the clean signal is scaled (C153_untouched_refuted)"
  },
  {
   "property": "C154",
   "status": "proved",
   "theorems": [
    "C154_cartesian",
    "C154_elevation",
    "C154_colatitude",
    "C154_refuses",
    "C154_upper_refuted",
    "C154_order",
    "C154_open",
    "C154_dirpat"
   ],
   "note": "exact arithmetic, contents as given by python-sofa, resampling an argument; a user expects every file of the standard to be read: one with no position below the horizon is misread, its elevations are taken for colatitudes (C154_upper_refuted)"
  },
  {
   "property": "C155",
   "status": "proved",
   "theorems": [
    "C155_cleaned",
    "C155_rank",
    "C155_visibility",
    "C155_image",
    "C155_peak",
    "C155_raw",
    "C155_overlap_refuted"
   ],
   "note": "exact arithmetic, eigh by its specification; a user expects the averaging of raw signals to align overlapping frames: the aligning factor is identically one and a tone in an odd bin averages to zero with half overlapping frames (C155_overlap_refuted)"
  },
  {
   "property": "C156",
   "status": "proved",
   "theorems": [
    "C156_minimax",
    "C156_every",
    "C156_bound",
    "C156_whole",
    "C156_mirror",
    "C156_none"
   ],
   "note": "exact arithmetic; the cone solver by its specification (a minimiser, if there is one)"
  },
  {
   "property": "C157",
   "status": "proved",
   "theorems": [
    "C157_fewer",
    "C157_power",
    "C157_rows",
    "C157_correlated_refuted"
   ],
   "note": "exact arithmetic, eig and argsort by their specifications; a user expects the start to be the principal eigenvectors: a transpose is missing, the eigenvectors are in the columns, the outputs are correlated (C157_correlated_refuted) and fewer sources than microphones always raise (C157_fewer)"
  },
  {
   "property": "C158",
   "status": "proved",
   "theorems": [
    "C158_amplitudes",
    "C158_update",
    "C158_best",
    "C158_noise_refuted"
   ],
   "note": "exact arithmetic, visibilities (not raw signals); nnls, lstsq and solve by their specifications, the azimuths of a pass an oracle (C148 has their recovery); with noise the amplitudes are not the non-negative ones that fit best, since nnls is applied to the normal equations (C158_noise_refuted)"
  },
  {
   "property": "C159",
   "status": "proved",
   "theorems": [
    "C159_set",
    "C159_variable",
    "C159_openmp_refuted",
    "C159_zero_refuted"
   ],
   "note": "int() of a string is an argument; OMP_NUM_THREADS and MKL_NUM_THREADS, which the documentation lists, never have an effect (C159_openmp_refuted), and zero threads are accepted (C159_zero_refuted)"
  },
  {
   "property": "C160",
   "status": "proved",
   "theorems": [
    "C160_bands",
    "C160_table",
    "C160_given",
    "C160_replicated_refuted",
    "C160_example_refuted"
   ],
   "note": "exact arithmetic, linear interpolation; the documentation says that missing values are replicated from the last one, they are extrapolated instead (C160_replicated_refuted), and the coefficients of its example are not the ones used (C160_example_refuted)"
  },
  {
   "property": "C161",
   "status": "proved",
   "theorems": [
    "C161_named",
    "C161_corners",
    "C161_shoebox",
    "C161_extruded",
    "C161_floor_refuted"
   ],
   "note": "names only, the rest of a wall is arbitrary; after extrude the mapping is not made again: floor, ceiling and the new names of the sides raise although such walls exist (C161_floor_refuted)"
  },
  {
   "property": "C162",
   "status": "proved",
   "theorems": [
    "C162_amplitudes",
    "C162_single",
    "C162_update",
    "C162_update_refuted"
   ],
   "note": "exact arithmetic, lstsq by its specification, the azimuths of a pass an oracle; with updates of the mapping (G_iter > 1) raw signals always raise, since the update is that of visibilities (C162_update)"
  }
 ]
}