{
 "claims": [
  {
   "property": "C01",
   "status": "proved",
   "theorems": [
    "C01_layout_bijection",
    "C01_reachable_valid"
   ],
   "note": ""
  },
  {
   "property": "C02",
   "status": "proved",
   "theorems": [
    "C02_history_refines_map",
    "C02_last_write_wins"
   ],
   "note": ""
  },
  {
   "property": "C03",
   "status": "proved",
   "theorems": [
    "C03_element_bounds",
    "C03_rejected_write_no_change"
   ],
   "note": ""
  },
  {
   "property": "C04",
   "status": "proved",
   "theorems": [
    "C04_column_read",
    "C04_row_read",
    "C04_column_write",
    "C04_row_write",
    "C04_row_self_assign"
   ],
   "note": ""
  },
  {
   "property": "C05",
   "status": "proved",
   "theorems": [
    "C05_truncation",
    "C05_negative_stop_refuted"
   ],
   "note": ""
  },
  {
   "property": "C06",
   "status": "proved",
   "theorems": [
    "C06_window",
    "C06_window_length_one"
   ],
   "note": ""
  },
  {
   "property": "C07",
   "status": "proved",
   "theorems": [
    "C07_angular_power",
    "C07_power_total",
    "C07_power_modes"
   ],
   "note": "power totals in exact arithmetic"
  },
  {
   "property": "C08",
   "status": "proved",
   "theorems": [
    "C08_binary_modewise",
    "C08_number_modewise",
    "C08_number_left_modewise",
    "C08_other_operand"
   ],
   "note": ""
  },
  {
   "property": "C09",
   "status": "proved",
   "theorems": [
    "C09_mismatch_iff_sizes_differ",
    "C09_shape_check_refuted"
   ],
   "note": "the stronger shape check is refuted (C09_shape_check_refuted)"
  },
  {
   "property": "C10",
   "status": "proved",
   "theorems": [
    "C10_scalar_coefs_div_zero",
    "C10_vector_coefs_div_zero",
    "C10_scalar_patt_div_zero",
    "C10_vector_patt_div_zero"
   ],
   "note": ""
  },
  {
   "property": "C11",
   "status": "proved",
   "theorems": [
    "C11_no_monopole",
    "C11_monopole_access_rejected"
   ],
   "note": ""
  },
  {
   "property": "C12",
   "status": "proved",
   "theorems": [
    "C12_pair_write",
    "C12_other_writes_rejected",
    "C12_reads_componentwise",
    "C12_truncation_componentwise"
   ],
   "note": ""
  },
  {
   "property": "C13",
   "status": "proved",
   "theorems": [
    "C13_modewise",
    "C13_number_modewise",
    "C13_size_mismatch",
    "C13_size_check_refuted"
   ],
   "note": "the natural size check is refuted (C13_size_check_refuted)"
  },
  {
   "property": "C14",
   "status": "proved",
   "theorems": [
    "C14_factory_errors",
    "C14_zeros_ones",
    "C14_random"
   ],
   "note": ""
  },
  {
   "property": "C15",
   "status": "proved",
   "theorems": [
    "C15_array_2d"
   ],
   "note": ""
  },
  {
   "property": "C16",
   "status": "proved",
   "theorems": [
    "C16_pretty"
   ],
   "note": ""
  },
  {
   "property": "C17",
   "status": "proved",
   "theorems": [
    "C17_scalar_constructor_symmetric",
    "C17_vector_constructor_antisymmetric",
    "C17_idempotent",
    "C17_too_few_rows",
    "C17_odd_columns_refuted"
   ],
   "note": "exact arithmetic; an odd number of columns is accepted and gives no symmetry (C17_odd_columns_refuted)"
  },
  {
   "property": "C18",
   "status": "proved",
   "theorems": [
    "C18_scalar_data_returned",
    "C18_vector_data_returned",
    "C18_float_pole_refuted"
   ],
   "note": "exact arithmetic; in binary64 tiny pole values come back doubled (C18_float_pole_refuted)"
  },
  {
   "property": "C19",
   "status": "proved",
   "theorems": [
    "C19_scalar_binary",
    "C19_scalar_number",
    "C19_vector_binary",
    "C19_vector_linear_antisym",
    "C19_product_antisym_refuted",
    "C19_add_number_antisym_refuted"
   ],
   "note": "products of transverse patterns / adding a number break antisymmetry (refuted theorems)"
  },
  {
   "property": "C20",
   "status": "proved",
   "theorems": [
    "C20_single_val_is_largest_deviation",
    "C20_is_symmetric_iff",
    "C20_vector_is_symmetric_iff",
    "C20_vector_phi_ignored",
    "C20_vector_decides_refuted"
   ],
   "note": "the vector test ignores phi (C20_vector_decides_refuted)"
  },
  {
   "property": "C21",
   "status": "proved",
   "theorems": [
    "C21_factory_errors",
    "C21_constant_factories",
    "C21_zeros_vector_antisym",
    "C21_ones_vector_refuted",
    "C21_random"
   ],
   "note": "ones of vector type is never antisymmetric (C21_ones_vector_refuted)"
  },
  {
   "property": "C22",
   "status": "proved",
   "theorems": [
    "C22_abs_mag_scalar",
    "C22_mag_patterns",
    "C22_mag_vector_coefs",
    "C22_mag2_scalar_coefs_is_mag",
    "C22_mag2_scalar_coefs_refuted",
    "C22_L2_coef",
    "C22_L2_vector_coefs_exact",
    "C22_L2_vector_coefs_refuted",
    "C22_L2_patt",
    "C22_LInf",
    "C22_compare_relative"
   ],
   "note": "exact arithmetic; mag2 of ScalarCoefs and L2_coef of VectorCoefs are refuted as norms"
  },
  {
   "property": "C23",
   "status": "proved",
   "theorems": [
    "C23_ynunm_is_harmonic_table"
   ],
   "note": "exact (real/complex) arithmetic, numpy fft trusted to be the DFT; 0<=mmax<=nmax; proved for the pure-Python backend"
  },
  {
   "property": "C24",
   "status": "proved",
   "theorems": [
    "C24_either_backend",
    "C24_ispht_evaluates_series"
   ],
   "note": "exact (real/complex) arithmetic, numpy fft trusted to be the DFT; 0<=mmax<=nmax; proved for the pure-Python backend"
  },
  {
   "property": "C25",
   "status": "proved",
   "theorems": [
    "C25_either_backend",
    "C25_projection",
    "C25_spht_inverts_ispht",
    "C25_round_trip_identity"
   ],
   "note": "exact (real/complex) arithmetic, numpy fft trusted to be the DFT; 0<=mmax<=nmax; proved for the pure-Python backend"
  },
  {
   "property": "C26",
   "status": "proved",
   "theorems": [
    "C26_either_backend",
    "C26_vspht_inverts_vispht",
    "C26_round_trip_identity"
   ],
   "note": "exact (real/complex) arithmetic, numpy fft trusted to be the DFT; 0<=mmax<=nmax; proved for the pure-Python backend"
  },
  {
   "property": "C27",
   "status": "proved",
   "theorems": [
    "C27_spht_linear",
    "C27_ispht_linear",
    "C27_vspht_linear",
    "C27_vispht_linear"
   ],
   "note": "exact (real/complex) arithmetic, numpy fft trusted to be the DFT; 0<=mmax<=nmax; proved for the pure-Python backend"
  },
  {
   "property": "C28",
   "status": "proved",
   "theorems": [
    "C28_either_backend",
    "C28_ispht_symmetric",
    "C28_vispht_antisymmetric"
   ],
   "note": "exact (real/complex) arithmetic, numpy fft trusted to be the DFT; 0<=mmax<=nmax; proved for the pure-Python backend"
  },
  {
   "property": "C29",
   "status": "proved",
   "theorems": [
    "C29_spht_guard",
    "C29_vspht_guard",
    "C29_defaults",
    "C29_vdefaults",
    "C29_given_mmax_ignored_refuted",
    "C29_wide_pattern_rejected",
    "C29_spht_slow_guard"
   ],
   "note": "exact (real/complex) arithmetic, numpy fft trusted to be the DFT; 0<=mmax<=nmax; proved for the pure-Python backend; the natural default behaviour is refuted (a given mmax is ignored, wide patterns rejected)"
  },
  {
   "property": "C30",
   "status": "proved",
   "theorems": [
    "C30_vispht_guard",
    "C30_ispht_guard",
    "C30_defaults",
    "C30_ispht_slow_guard",
    "C30_ispht_short_grid_refuted"
   ],
   "note": "exact (real/complex) arithmetic, numpy fft trusted to be the DFT; 0<=mmax<=nmax; proved for the pure-Python backend; nrows=nmax+1 gives a wrong result (refuted)"
  },
  {
   "property": "C31",
   "status": "proved",
   "theorems": [
    "C31_ynnm_equal",
    "C31_ynunm_equal",
    "C31_fc_to_sc_equal",
    "C31_sc_to_fc_equal",
    "C31_spht_equal",
    "C31_spht_is_spht_slow",
    "C31_vspht_equal",
    "C31_ispht_equal",
    "C31_ispht_is_ispht_slow",
    "C31_vispht_equal"
   ],
   "note": "exact arithmetic; C int without overflow (3*rows <= 2^31); 0<=mmax; the degenerate single-row nmax=0 inverse is excluded (C32)"
  },
  {
   "property": "C32",
   "status": "proved",
   "theorems": [
    "C32_fc_to_sc_in_bounds",
    "C32_sc_to_fc_in_bounds",
    "C32_spht_in_bounds",
    "C32_vspht_in_bounds",
    "C32_ispht_in_bounds",
    "C32_vispht_in_bounds",
    "C32_ispht_single_row_out_of_bounds"
   ],
   "note": "C int without overflow; ispht(c,1,ncols) with nmax=0 leaves the array (C32_ispht_single_row_out_of_bounds)"
  },
  {
   "property": "C33",
   "status": "proved",
   "theorems": [
    "C33_kiss_fft_is_dft",
    "C33_in_place_is_dft",
    "C33_kiss_fft_contiguous",
    "C33_roundtrip"
   ],
   "note": "exact arithmetic; C int without overflow, n < 2^31"
  },
  {
   "property": "C34",
   "status": "proved",
   "theorems": [
    "C34_factorisation"
   ],
   "note": "floor(sqrt((double)n)) modelled by the integer square root (exact for int n); C int without overflow"
  },
  {
   "property": "C35",
   "status": "proved",
   "theorems": [
    "C35_FindQ_least_smooth",
    "C35_FindQ_nonpositive_diverges",
    "C35_kiss_next_fast_size",
    "C35_kiss_zero_diverges",
    "C35_search_least",
    "C35_nonpositive_diverges"
   ],
   "note": "pure-Python search, kiss_fft_next_fast_size / FindQ in P_Kiss; non-positive sizes diverge (C35_nonpositive_diverges)"
  },
  {
   "property": "C36",
   "status": "proved",
   "theorems": [
    "C36_no_aliasing",
    "C36_length_admissible",
    "C36_spht_data",
    "C36_vspht_data"
   ],
   "note": "exact arithmetic; the aliasing-free length is proved admissible"
  },
  {
   "property": "C37",
   "status": "proved",
   "theorems": [
    "C37_coef_roundtrip",
    "C37_negative_zero_refuted",
    "C37_infinite_refuted"
   ],
   "note": "finite doubles; the sign of a zero component may change (C37_negative_zero_refuted); infinities do not survive (C37_infinite_refuted)"
  },
  {
   "property": "C38",
   "status": "proved",
   "theorems": [
    "C38_raw_data_roundtrip",
    "C38_load_patt_roundtrip",
    "C38_tiny_pole_refuted",
    "C38_load_vpatt"
   ],
   "note": "binary64 values; pole values whose square underflows come back doubled (C38_tiny_pole_refuted)"
  },
  {
   "property": "C39",
   "status": "proved",
   "theorems": [
    "C39_text_identifies_double",
    "C39_float_is_nearest"
   ],
   "note": "Python's float/format text conversion modelled by exact decimal rounding (correctly rounded), as CPython documents"
  },
  {
   "property": "C40",
   "status": "proved",
   "theorems": [
    "C40_interrupted_save",
    "C40_interrupted_header",
    "C40_extra_lines",
    "C40_truncated_number_refuted",
    "C40_interrupted_pattern_save"
   ],
   "note": "a crash leaves a prefix of the file; a truncated file is silently accepted with zeros, a number cut in the middle loads as a wrong value (C40_truncated_number_refuted)"
  },
  {
   "property": "C41",
   "status": "proved",
   "theorems": [
    "C41_load_vcoef"
   ],
   "note": "ASCII text; finite values, sign of a zero component may change"
  },
  {
   "property": "C42",
   "status": "proved",
   "theorems": [
    "C42_values",
    "C42_solves_equation",
    "C42_errors"
   ],
   "note": ""
  },
  {
   "property": "C43",
   "status": "proved",
   "theorems": [
    "C43_recurrence",
    "C43_accuracy_small_arguments",
    "C43_accuracy",
    "C43_errors",
    "C43_cross_product_test"
   ],
   "note": ""
  },
  {
   "property": "C44",
   "status": "proved",
   "theorems": [
    "C44_loop_convergent",
    "C44_convergent_error",
    "C44_loop_terminates_accurate",
    "C44_target_is_bessel"
   ],
   "note": ""
  },
  {
   "property": "C45",
   "status": "proved",
   "theorems": [
    "C45_hankel",
    "C45_arrays"
   ],
   "note": ""
  },
  {
   "property": "C46",
   "status": "proved",
   "theorems": [
    "C46_calls_compute_on_values",
    "C46_new_object_isolated",
    "C46_writes_to_new_object_stay_inside",
    "C46_separation",
    "C46_value_semantics",
    "C46_scalar_copy_equal",
    "C46_vector_copy"
   ],
   "note": "exact arithmetic, contiguous arrays; dtypes and strided user views not modelled"
  },
  {
   "property": "C47",
   "status": "proved",
   "theorems": [
    "C47_references_track",
    "C47_scalarcoefs_is_reference",
    "C47_writes_visible_both_ways",
    "C47_column_is_view",
    "C47_row_is_snapshot",
    "C47_vectorcoefs_is_reference",
    "C47_vectorcoefs_clears_callers_arrays",
    "C47_vectorcoefs_rejected_untouched",
    "C47_same_array_twice",
    "C47_window_by_own_column_refuted",
    "C47_monopole_through_scoef1_refuted",
    "C47_write_to_cdata_refuted"
   ],
   "note": "consequences of sharing shown by witnesses: C47_window_by_own_column_refuted, C47_monopole_through_scoef1_refuted, C47_write_to_cdata_refuted"
  },
  {
   "property": "C48",
   "status": "proved",
   "theorems": [
    "C48_spht",
    "C48_vspht",
    "C48_ispht",
    "C48_vispht",
    "C48_slow",
    "C48_result_and_argument_independent"
   ],
   "note": "exact arithmetic; pure-Python backend; store model of numpy buffers and contiguous views"
  },
  {
   "property": "C49",
   "status": "proved",
   "theorems": [
    "C49_values",
    "C49_correct_for_50",
    "C49_agrees_with_ispht",
    "C49_wide_raises",
    "C49_other_columns_refuted"
   ],
   "note": "exact arithmetic; only right for 50 columns (C49_other_columns_refuted)"
  },
  {
   "property": "C50",
   "status": "proved",
   "theorems": [
    "C50_switch",
    "C50_False_string_selects_C_refuted",
    "C50_spht_independent_of_switch",
    "C50_vspht_independent_of_switch",
    "C50_ispht_independent_of_switch",
    "C50_vispht_independent_of_switch"
   ],
   "note": "\"False\" selects the C path (C50_False_string_selects_C_refuted)"
  },
  {
   "property": "C51",
   "status": "proved",
   "theorems": [
    "C51_sin_fc",
    "C51_divsin_inverts",
    "C51_dtheta_fc",
    "C51_dphi_fc",
    "C51_L_operators"
   ],
   "note": "exact arithmetic"
  },
  {
   "property": "C52",
   "status": "proved",
   "theorems": [
    "C52_grids_agree"
   ],
   "note": "exact (real/complex) arithmetic, numpy fft trusted to be the DFT; 0<=mmax<=nmax; proved for the pure-Python backend"
  },
  {
   "property": "C53",
   "status": "proved",
   "theorems": [
    "C53_either_backend",
    "C53_vispht_evaluates_series"
   ],
   "note": "exact (real/complex) arithmetic, numpy fft trusted to be the DFT; 0<=mmax<=nmax; proved for the pure-Python backend"
  },
  {
   "property": "C54",
   "status": "proved",
   "theorems": [
    "C54_spht_inner_products",
    "C54_harmonics_orthonormal",
    "C54_any_pattern"
   ],
   "note": "exact arithmetic; functions that are trigonometric polynomials of degree <= nrows-2 in theta, < ncols/2 in phi; 0<=mmax"
  },
  {
   "property": "C55",
   "status": "proved",
   "theorems": [
    "C55_power_is_energy",
    "C55_least_squares"
   ],
   "note": "exact arithmetic; same class of functions as C54"
  },
  {
   "property": "C56",
   "status": "proved",
   "theorems": [
    "C56_conjugate",
    "C56_real_data",
    "C56_real_synthesis",
    "C56_rotation",
    "C56_phi_reflection",
    "C56_theta_reflection",
    "C56_constant",
    "C56_constructed_patterns"
   ],
   "note": "exact arithmetic; patterns with an even number of columns and symmetric doubled data (what the constructor and ispht make, C56_constructed_patterns); 0<=mmax"
  },
  {
   "property": "C57",
   "status": "proved",
   "theorems": [
    "C57_verify_spht",
    "C57_verify_spht_zero",
    "C57_verify_spht_own_output",
    "C57_verify_ispht",
    "C57_verify_ispht_zero",
    "C57_verify_vspht",
    "C57_verify_vspht_linf_zero",
    "C57_L2_blind_refuted",
    "C57_verify_vispht",
    "C57_verify_fdata",
    "C57_verify_fdata_short_out_of_bounds",
    "C57_saved_coefficients",
    "C57_saved_vector_coefficients"
   ],
   "note": "exact arithmetic on the loaded values (real value of each double); a relative figure is None where numpy gives nan or inf; C57_L2_blind_refuted shows that verify_vspht's L2 figures do not see the second component"
  },
  {
   "property": "C58",
   "status": "proved",
   "theorems": [
    "C58_plot_mag_on_sphere",
    "C58_geometry",
    "C58_plot_sphere_mag_scalar",
    "C58_plot_sphere_mag_transverse",
    "C58_plot_sphere_mag_errors",
    "C58_synthesis_plot",
    "C58_simple_plot",
    "C58_pcolor_coefs",
    "C58_plot_coefs",
    "C58_vector_coefs_rejected",
    "C58_no_matplotlib"
   ],
   "note": "the arrays and points handed to matplotlib, in exact arithmetic; matplotlib itself (and its choice of mesh shading) is not modelled"
  },
  {
   "property": "C59",
   "status": "proved",
   "theorems": [
    "C59_vspht_inner_products",
    "C59_any_pattern",
    "C59_vector_harmonics_orthonormal"
   ],
   "note": "exact arithmetic; components that are trigonometric polynomials of degree <= nrows-2 in theta, < ncols/2 in phi; 0<=mmax; the poles, where the vector harmonics have no components, do not enter the integral"
  },
  {
   "property": "C60",
   "status": "proved",
   "theorems": [
    "C60_power_is_energy",
    "C60_least_squares"
   ],
   "note": "exact arithmetic; same class of fields as C59"
  },
  {
   "property": "C61",
   "status": "proved",
   "theorems": [
    "C61_rotation",
    "C61_conjugate",
    "C61_real_data",
    "C61_phi_reflection",
    "C61_theta_reflection",
    "C61_duality",
    "C61_constructed_patterns",
    "C61_real_arrays"
   ],
   "note": "exact arithmetic; patterns with the stored antisymmetry, which C61_constructed_patterns shows the constructor produces; C61_real_arrays is in terms of the arrays passed to the constructor"
  },
  {
   "property": "C62",
   "status": "proved",
   "theorems": [
    "C62_repr_identifies",
    "C62_str_lines",
    "C62_str_identifies",
    "C62_vector_repr",
    "C62_pattern_repr",
    "C62_labels",
    "C62_picture_rows",
    "C62_picture"
   ],
   "note": "the text of one number (Python str/format of a complex) and of a numpy array are parameters; everything around them is concrete text. Numbers whose .2 format exceeds 13 characters shift the pretty_coefs columns (C62_picture needs the bound, C62_picture_rows does not)"
  },
  {
   "property": "C63",
   "status": "proved",
   "theorems": [
    "C63_spht_no_overflow",
    "C63_spht_overflow",
    "C63_vspht_no_overflow",
    "C63_vspht_overflow",
    "C63_ispht_no_overflow",
    "C63_ispht_overflow",
    "C63_vispht_no_overflow",
    "C63_vispht_overflow",
    "C63_floor_sqrt",
    "C63_kf_factor",
    "C63_kiss_fft",
    "C63_kiss_fft_prime_overflow",
    "C63_FindQ_range",
    "C63_next_fast_size_range"
   ],
   "note": "exact arithmetic for the floating point values, 32 bit ints checked; size_t and pointers unbounded; spht/vspht theorems for patterns with an even number 2R-2 of doubled rows and 0<=mmax; the converse (overflow) for mmax>=1"
  },
  {
   "property": "C64",
   "status": "proved",
   "theorems": [
    "C64_well_typed",
    "C64_accepted_closed",
    "C64_ispht_accepted",
    "C64_ispht_rejected",
    "C64_ispht_abs_refuted",
    "C64_spht_accepted",
    "C64_spht_numpy_int_refuted",
    "C64_write_element",
    "C64_write_column",
    "C64_window",
    "C64_vispht_python",
    "C64_vispht_int_truncates",
    "C64_vispht_int_refuted",
    "C64_vispht_accepted",
    "C64_vispht_rejected"
   ],
   "note": "numpy's promotion/casting rules and SWIG's argument checks as stated in MDtype.v; int64 without wrap-around; c[n,:]=v into real arrays not modelled; exact arithmetic"
  },
  {
   "property": "C65",
   "status": "proved",
   "theorems": [
    "C65_same_table",
    "C65_accurate",
    "C65_wrong_from_1076",
    "C65_table_nan",
    "C65_spht_nan",
    "C65_spht_nan_c",
    "C65_ispht_nan",
    "C65_ispht_nan_c"
   ],
   "note": "IEEE binary64 (SpecFloat) for the tables and the sums over them; FFT results arbitrary; the error of the remaining table entries is bounded in C67, that of the sums is not; degrees 1023..1075 are not classified; the last inverse FFT of ispht is not modelled in double precision (the theorem is about its argument)"
  },
  {
   "property": "C66",
   "status": "proved",
   "theorems": [
    "C66_sbesselj_accurate",
    "C66_sbesselj_small",
    "C66_sbesselj_garbage",
    "C66_sbesselj_terminates",
    "C66_sbessely_accurate",
    "C66_sbessely_nan",
    "C66_hankel",
    "C66_hankel_nan"
   ],
   "note": "IEEE binary64 (SpecFloat) for every operation of sbessel.py; np.sin, np.cos and x**2 are parameters with stated accuracy (for the concrete failing x: correctly rounded); x a Python float or a numpy float64 scalar, not an int or an array; accuracy for |x| > 1 and for negative x is not treated in double precision (C42-C45 treat it in exact arithmetic)"
  },
  {
   "property": "C67",
   "status": "proved",
   "theorems": [
    "C67_table_accurate",
    "C67_table_accurate_c",
    "C67_size",
    "C67_tolerance"
   ],
   "note": "IEEE binary64 (SpecFloat); absolute error; degrees 1023..1075 not treated"
  },
  {
   "property": "C68",
   "status": "proved",
   "theorems": [
    "C68_pattern_bound",
    "C68_stable",
    "C68_attained"
   ],
   "note": "exact arithmetic; scalar transforms"
  },
  {
   "property": "C69",
   "status": "proved",
   "theorems": [
    "C69_spht_accurate",
    "C69_spht_accurate_c",
    "C69_spht_vs_exact",
    "C69_spht_vs_exact_c",
    "C69_bound_size"
   ],
   "note": "the FFTs that produce the data are not modelled in doubles; their error enters as delta"
  },
  {
   "property": "C70",
   "status": "proved",
   "theorems": [
    "C70_ispht_accurate",
    "C70_ispht_accurate_c",
    "C70_ispht_vs_exact"
   ],
   "note": "up to the array handed to the inverse FFT; the FFT itself is not modelled in doubles"
  },
  {
   "property": "C71",
   "status": "proved",
   "theorems": [
    "C71_sum_rule",
    "C71_value",
    "C71_no_false_alarm",
    "C71_small_arguments"
   ],
   "note": "exact arithmetic; np.sort only reorders the summands"
  },
  {
   "property": "C72",
   "status": "proved",
   "theorems": [
    "C72_fft_accurate",
    "C72_in_place_accurate",
    "C72_fast_sizes",
    "C72_size_360",
    "C72_roundtrip"
   ],
   "note": "binary64 arithmetic; cos and sin of the math library are parameters with an accuracy hypothesis, no fused multiply-add"
  },
  {
   "property": "C73",
   "status": "proved",
   "theorems": [
    "C73_spht_c_accurate"
   ],
   "note": "binary64 arithmetic without fused multiply-add; the 2-D FFT that produces fdata is numpy's and not modelled in doubles; ints unbounded (C63)"
  },
  {
   "property": "C74",
   "status": "proved",
   "theorems": [
    "C74_ispht_accurate"
   ],
   "note": "np.fft.ifft2 is a parameter with an assumed accuracy; binary64 without fused multiply-add; ints unbounded (C63); nrows = nmax + 1 (accepted by the code, aliased) is not covered"
  },
  {
   "property": "C75",
   "status": "proved",
   "theorems": [
    "C75_spht_accurate"
   ],
   "note": "np.fft.fft2 and libm's cos and sin are parameters with an assumed accuracy; binary64 without fused multiply-add; ints unbounded (C63); 2 nrows + nmax <= 2^19"
  },
  {
   "property": "C76",
   "status": "proved",
   "theorems": [
    "C76_round_trip_accurate",
    "C76_round_trip_sizes"
   ],
   "note": "as C74 and C75; nrows >= nmax + 2 and ncols >= 2 mmax + 2 (the sizes for which the exact round trip is the identity, C25)"
  },
  {
   "property": "C77",
   "status": "proved",
   "theorems": [
    "C77_ispht_accurate",
    "C77_backends_agree"
   ],
   "note": "np.fft.ifft2 and the powers 1j ** m are parameters with an assumed accuracy; binary64; nrows = nmax + 1 (accepted by the code, aliased) is not covered"
  },
  {
   "property": "C78",
   "status": "proved",
   "theorems": [
    "C78_spht_python_accurate"
   ],
   "note": "np.fft.fft, np.fft.ifft and the powers 1j ** m are parameters with an assumed accuracy, np.sum adds in any order; binary64; the 2-D FFT that produces fdata is in C79"
  },
  {
   "property": "C79",
   "status": "proved",
   "theorems": [
    "C79_spht_accurate",
    "C79_backends_agree"
   ],
   "note": "the np.fft routines, the powers 1j ** m and (agreement) libm's cos and sin are parameters with an assumed accuracy; binary64 without fused multiply-add; ints unbounded (C63); 2 nrows + nmax <= 2^19"
  },
  {
   "property": "C80",
   "status": "proved",
   "theorems": [
    "C80_round_trip_accurate",
    "C80_round_trip_sizes"
   ],
   "note": "as C77 and C79; nrows >= nmax + 2 and ncols >= 2 mmax + 2 (the sizes for which the exact round trip is the identity, C25)"
  },
  {
   "property": "C81",
   "status": "proved",
   "theorems": [
    "C81_powers_exact",
    "C81_powers_library",
    "C81_powers_of_interpreter",
    "C81_round_trip"
   ],
   "note": "CPython is not in /repo: complexobject.c is modelled as part of the machine the code runs on (c_powu, c_powi, _Py_c_prod, _Py_c_quot, _Py_c_pow; hypot(0,1) = 1 and pow(1,m) = 1 by C99 Annex F); numpy integer exponents, which the code does not use here, are not covered"
  },
  {
   "property": "C82",
   "status": "proved",
   "theorems": [
    "C82_derivatives_accurate",
    "C82_divsin_accurate",
    "C82_divsin_undoes_sin",
    "C82_L_accurate",
    "C82_sinLdot_accurate"
   ],
   "note": "binary64 with numpy's complex operations (no fused multiply-add); even sizes, nrows >= 4; the result is compared with the exact operator on the same values, the vector transforms around it are not rounded here"
  },
  {
   "property": "C83",
   "status": "proved",
   "theorems": [
    "C83_nvec_accurate",
    "C83_normalise_accurate"
   ],
   "note": "binary64 with correctly rounded sqrt and numpy's textbook complex product (no fused multiply-add)"
  },
  {
   "property": "C84",
   "status": "proved",
   "theorems": [
    "C84_vispht_accurate_c",
    "C84_vispht_accurate_python",
    "C84_backends_agree",
    "C84_default_grid",
    "C84_refused_grids"
   ],
   "note": "np.fft.ifft2 and the interpreter's powers are parameters with accuracy hypotheses; the tolerance is a worst-case bound (it grows like nrows^2 ncols^2 sqrt(nmax) B / 2^53 times nmax), not a typical error; at the poles the two backends are compared, the series is not evaluated"
  }
 ]
}