{
 "claims": [
  {
   "property": "C01",
   "status": "proved",
   "theorems": [
    "C01_coordinates_bijective",
    "C01_get_stride"
   ],
   "note": ""
  },
  {
   "property": "C02",
   "status": "proved",
   "theorems": [
    "C02_at_read_total",
    "C02_at_write_total",
    "C02_at_range_same_arity",
    "C02_at_range_arity_refuted"
   ],
   "note": "at with explicit coordinates is fully proved; the overload taking a range of coordinates lacks the dimensionality check (refuted)."
  },
  {
   "property": "C03",
   "status": "proved",
   "theorems": [
    "C03_write_history_is_finite_map"
   ],
   "note": ""
  },
  {
   "property": "C04",
   "status": "partial",
   "theorems": [
    "C04_ctor_sizes",
    "C04_ctor_data",
    "C04_ctor_rows_partial",
    "C04_ctor_rows_refuted",
    "C04_default_refuted",
    "C04_operations_preserve"
   ],
   "note": "All constructors except ragged vector-of-rows; default-constructed image reports count()==1 with no storage (both refuted)."
  },
  {
   "property": "C05",
   "status": "proved",
   "theorems": [
    "C05_linear_index_to_coordinates",
    "C05_coordinates_to_linear_index",
    "C05_stride_overload_agrees",
    "C05_read_at_coordinates"
   ],
   "note": ""
  },
  {
   "property": "C06",
   "status": "partial",
   "theorems": [
    "C06_pixels_with_coordinates_partial",
    "C06_other_dimensionality_throws",
    "C06_zero_width_refuted"
   ],
   "note": "Holds except for images of width 0 and positive height, where iteration dereferences past the end (refuted)."
  },
  {
   "property": "C07",
   "status": "proved",
   "theorems": [
    "C07_set_index",
    "C07_set_tuple"
   ],
   "note": ""
  },
  {
   "property": "C08",
   "status": "proved",
   "theorems": [
    "C08_elementwise_or_throw",
    "C08_subtract_undoes_add"
   ],
   "note": ""
  },
  {
   "property": "C09",
   "status": "partial",
   "theorems": [
    "C09_no_overflow_partial",
    "C09_overflow_refuted"
   ],
   "note": "False when the product of extents wraps (refuted, 2^32 x 2^32); without wrap the 64-bit code equals the nat model."
  },
  {
   "property": "C10",
   "status": "proved",
   "theorems": [
    "C10_rgb_add_sub",
    "C10_rgb_sub_undoes_add",
    "C10_multichannel",
    "C10_point"
   ],
   "note": ""
  },
  {
   "property": "C11",
   "status": "proved",
   "theorems": [
    "C11_transpose",
    "C11_other_dimensionality_throws"
   ],
   "note": ""
  },
  {
   "property": "C12",
   "status": "proved",
   "theorems": [
    "C12_flip_horizontal",
    "C12_flip_vertical",
    "C12_flip_both",
    "C12_other_dimensionality_throws"
   ],
   "note": ""
  },
  {
   "property": "C13",
   "status": "partial",
   "theorems": [
    "C13_quarter_turn",
    "C13_rotate_detail_partial",
    "C13_rotate_multiple_never_turns",
    "C13_rotate_refuted"
   ],
   "note": "Quarter turns are exact for every image and rotate_detail is proved for 0 and 90 degrees; rotate() reduces the angle modulo 90 degrees, so multiples of 90 degrees never turn the image (refuted); the sampling of general angles is not modelled here."
  },
  {
   "property": "C14",
   "status": "proved",
   "theorems": [
    "C14_subimage",
    "C14_inside_meaning",
    "C14_wrong_arity_throws"
   ],
   "note": ""
  },
  {
   "property": "C15",
   "status": "partial",
   "theorems": [
    "C15_subimage2_partial",
    "C15_subimage2_refuted"
   ],
   "note": "Proved for rectangles inside the image; the bound is tested with > instead of >=, so x2 = width or y2 = height returns a wrong pixel or reads past the end (refuted)."
  },
  {
   "property": "C16",
   "status": "proved",
   "theorems": [
    "C16_split_cells",
    "C16_split_concat_identity"
   ],
   "note": ""
  },
  {
   "property": "C17",
   "status": "partial",
   "theorems": [
    "C17_concat_horizontal",
    "C17_concat_vertical",
    "C17_concat_mismatch_throws",
    "C17_empty_list_refuted"
   ],
   "note": "Concatenation is exact for all non-empty lists of compatible images, mismatch throws; the empty list is undefined behaviour (refuted)."
  },
  {
   "property": "C18",
   "status": "partial",
   "theorems": [
    "C18_split_overlap_partial",
    "C18_split_overlap_refuted"
   ],
   "note": "The source position of every cell is characterised exactly; it is not the one claimed (shift by the overlap and by one for even extents), refuted with counterexamples."
  },
  {
   "property": "C19",
   "status": "partial",
   "theorems": [
    "C19_paste2D_partial",
    "C19_paste2D_wraps_undefined",
    "C19_paste2D_refuted"
   ],
   "note": "Exact for every location whose extent + location does not wrap and non-empty canvas; with wrap-around the code writes out of bounds (refuted)."
  },
  {
   "property": "C20",
   "status": "proved",
   "theorems": [
    "C20_constant_padding"
   ],
   "note": ""
  },
  {
   "property": "C21",
   "status": "proved",
   "theorems": [
    "C21_replicate_padding"
   ],
   "note": ""
  },
  {
   "property": "C22",
   "status": "proved",
   "theorems": [
    "C22_mirror_padding",
    "C22_too_large_throws"
   ],
   "note": ""
  },
  {
   "property": "C23",
   "status": "proved",
   "theorems": [
    "C23_draw_line",
    "C23_end_points_drawn",
    "C23_other_dimensionality_throws"
   ],
   "note": ""
  },
  {
   "property": "C24",
   "status": "proved",
   "theorems": [
    "C24_draw_circle",
    "C24_radius_zero",
    "C24_other_dimensionality_throws"
   ],
   "note": ""
  },
  {
   "property": "C25",
   "status": "partial",
   "theorems": [
    "C25_draw_point_partial",
    "C25_draw_points_partial",
    "C25_near_border_nothing_drawn",
    "C25_draw_point_refuted"
   ],
   "note": "Holds when the point is at least radius away from the left and top border; nearer to it point - radius wraps and nothing is drawn (refuted)."
  },
  {
   "property": "C26",
   "status": "proved",
   "theorems": [
    "C26_conv2_full",
    "C26_conv2_same",
    "C26_conv2_commutes",
    "C26_conv2_uint8",
    "C26_empty_kernel_throws"
   ],
   "note": "Full and same-size results for every image and non-empty kernel and every execution order; 8-bit images accumulate modulo 256; commutative when the arithmetic is. Rounding of floating accumulation is not modelled."
  },
  {
   "property": "C27",
   "status": "partial",
   "theorems": [
    "C27_convolution_full",
    "C27_agrees_with_conv2",
    "C27_same_size_returns_input",
    "C27_same_size_refuted"
   ],
   "note": "Full convolution proved for every dimensionality (and equal to conv2 in two dimensions). With is_size_same the code crops the input instead of the result and returns the input image unchanged (refuted)."
  },
  {
   "property": "C28",
   "status": "partial",
   "theorems": [
    "C28_sequential_partial",
    "C28_one_pixel_windows_any_order",
    "C28_window_dimension_throws",
    "C28_original_neighbourhood_refuted",
    "C28_order_refuted"
   ],
   "note": "False: results are written into the image the windows are read from, so the result is not the filter of the original neighbourhood and depends on the order (two refutations). Proved: exact description of the sequential result, order independence for one-pixel windows, dimension check."
  },
  {
   "property": "C29",
   "status": "proved",
   "theorems": [
    "C29_any_order",
    "C29_any_interleaving",
    "C29_apply_each_pixel",
    "C29_transpose"
   ],
   "note": "Every order of whole tasks and every interleaving of their compute/store steps; per-pixel maps and transpose (flips and warps have their own theorems)."
  },
  {
   "property": "C30",
   "status": "proved",
   "theorems": [
    "C30_planes_of_construct",
    "C30_construct_of_planes",
    "C30_multichannel",
    "C30_mismatch_throws",
    "C30_apply_each",
    "C30_plane_index_unchecked"
   ],
   "note": "Also shows that the RGB/HSV overload of getPlane does not check its channel index."
  },
  {
   "property": "C31",
   "status": "proved",
   "theorems": [
    "C31_saturating_subtract",
    "C31_plain_subtract",
    "C31_mismatch_throws"
   ],
   "note": ""
  },
  {
   "property": "C32",
   "status": "proved",
   "theorems": [
    "C32_dense_counts",
    "C32_dense_outside",
    "C32_sparse_counts",
    "C32_dense_sparse_agree"
   ],
   "note": "Dense counts for every image whose pixels are in range; sparse counts for every key type with a strict total order; the total is independent of the grouping used by std::reduce."
  },
  {
   "property": "C33",
   "status": "proved",
   "theorems": [
    "C33_dense_history",
    "C33_sparse_history",
    "C33_dense_subscript",
    "C33_sparse_subscript"
   ],
   "note": "addCount histories and operator[] in both representations. Histogram::operator+, +=, - and -= are const-qualified members that modify the object and use std::get with a const type, so they do not compile when used; they are not modelled. begin/end return iterators into a destroyed copy and are not modelled."
  },
  {
   "property": "C34",
   "status": "partial",
   "theorems": [
    "C34_dense",
    "C34_sparse",
    "C34_histogram_normalized",
    "C34_array_partial",
    "C34_array_refuted",
    "C34_fractional_counts_refuted",
    "C34_long_vector_refuted"
   ],
   "note": "Proved for size_t counts (dense and sparse, normalize, to_probabilities_vector, histogram_normalized, normalize_histogram of maps). Refuted for std::array of a narrow element type (sum wraps), for fractional counts in to_probabilities_vector (total truncated to size_t) and for a vector longer than the value range (write past the end). The sparse to_probabilities_vector does not compile (emplace_back of a braced list) and is not modelled. Rationals stand for doubles."
  },
  {
   "property": "C35",
   "status": "partial",
   "theorems": [
    "C35_bins_partial",
    "C35_wrong_bin_refuted",
    "C35_negative_value_refuted",
    "C35_shifted_range_refuted"
   ],
   "note": "Proved when the range starts at zero. The code does not subtract lowest: for other ranges values land in the wrong bin or the bin array is overrun or a negative double is converted to size_t (refutations)."
  },
  {
   "property": "C36",
   "status": "proved",
   "theorems": [
    "C36_otsu",
    "C36_image"
   ],
   "note": "Exact rationals stand for doubles; NaN from an empty class is modelled as a failed comparison. Also proved for the threshold of an image in terms of its pixels."
  },
  {
   "property": "C37",
   "status": "partial",
   "theorems": [
    "C37_round_trip_partial",
    "C37_two_gib_refuted"
   ],
   "note": "Proved whenever the padded pixel data's size modulo 2^32 is below 2^31 (any extents that fit the header, zero included): in particular for everything below 2 GiB. For a size whose remainder modulo 4 GiB is 2 GiB or more the writer succeeds and the reader's fill loop counts with an int against an unsigned bound and overflows (C37_two_gib_refuted)."
  },
  {
   "property": "C38",
   "status": "proved",
   "theorems": [
    "C38_row_padding"
   ],
   "note": ""
  },
  {
   "property": "C39",
   "status": "partial",
   "theorems": [
    "C39_reader_partial",
    "C39_any_size",
    "C39_two_gib_refuted",
    "C39_long_rows_refuted",
    "C39_negative_width_refuted",
    "C39_negative_width",
    "C39_rejected",
    "C39_short_file_refuted",
    "C39_allocation_failure_refuted"
   ],
   "note": "Proved for files of at least 26 bytes with a non-negative width: exact pixel semantics for 24-bit, 8-bit palette (any palette size), top-down and truncated files (missing bytes read as 255 / index 0) with less than 2 GiB of pixel data, and for bottom-up 24-bit files of any size whose pixel data modulo 4 GiB is below 2 GiB (C39_any_size). Refuted for shorter files (uninitialised header bytes), failed allocations (null pointer), pixel data of 2 to 4 GiB modulo 4 GiB (int counter overflows), rows of 2 GiB and more, and negative widths of 24-bit files (fread is asked for more than the buffer); a negative width for which no memory can be had is an exception. Top-down and palette files of 4 GiB and more are modelled but not described by a theorem."
  },
  {
   "property": "C40",
   "status": "partial",
   "theorems": [
    "C40_reader",
    "C40_truncated_samples",
    "C40_truncated_header",
    "C40_round_trip_P3",
    "C40_round_trip_P2",
    "C40_truncated_number_refuted",
    "C40_glued_comment_refuted"
   ],
   "note": "Reader theorem for every layout of white space and comments, round trips for P2 and P3 with a maximum of eight bits precision, exceptions for missing tokens. Missing: a file cut inside its last number is accepted with another value (refuted), a comment glued to a number is not recognised (refuted)."
  },
  {
   "property": "C41",
   "status": "partial",
   "theorems": [
    "C41_round_trip_partial",
    "C41_int",
    "C41_double_partial",
    "C41_double_refuted",
    "C41_uint8_refuted",
    "C41_empty_refuted",
    "C41_not_planar"
   ],
   "note": "Proved for every codec whose printed form is separator-free and parses back, with instances int and doubles holding integers of at most six digits. False for doubles with more digits, for uint8_t elements (written as characters) and for images without columns (refuted). Non-integer doubles are not modelled."
  },
  {
   "property": "C42",
   "status": "proved",
   "theorems": [
    "C42_transpose",
    "C42_multiply",
    "C42_mismatch",
    "C42_transpose_product",
    "C42_associative",
    "C42_identity"
   ],
   "note": "Proved for every size over any commutative ring (transpose and multiply of the code; identity and associativity as consequences)."
  },
  {
   "property": "C43",
   "status": "partial",
   "theorems": [
    "C43_inverse",
    "C43_wrong_size",
    "C43_small_entries_refuted",
    "C43_determinant",
    "C43_determinant_product"
   ],
   "note": "Inverse exact on both sides whenever returned, wrong sizes throw, the determinant is multiplicative. The code compares the absolute determinant with 1e-9, so an invertible matrix with small entries is reported as singular (refuted)."
  },
  {
   "property": "C44",
   "status": "partial",
   "theorems": [
    "C44_exact",
    "C44_tolerance_partial",
    "C44_tolerance_refuted",
    "C44_policy",
    "C44_image",
    "C44_image_not_planar"
   ],
   "note": "Exact over integral elements and both overloads; for floating elements the comparison is up to 1e-6 (partial: what is guaranteed; refuted: not equality)."
  },
  {
   "property": "C45",
   "status": "partial",
   "theorems": [
    "C45_solution",
    "C45_singular_refuted",
    "C45_small_refuted"
   ],
   "note": "Every returned vector solves the system whenever no pivot was judged zero. A singular system returns the zero vector without a report (refuted) and so does a regular one with small entries (refuted)."
  },
  {
   "property": "C46",
   "status": "proved",
   "theorems": [
    "C46_coefficients",
    "C46_idct_dct",
    "C46_dct_idct",
    "C46_volume",
    "C46_three_channels"
   ],
   "note": "Proved over the reals in both directions for one plane, three channels and whole volumes, with the closed formula of the coefficients, for every order of the parallel loops."
  },
  {
   "property": "C47",
   "status": "partial",
   "theorems": [
    "C47_coefficients",
    "C47_round_trip_partial",
    "C47_energy",
    "C47_unsigned_refuted"
   ],
   "note": "Proved over the reals whenever the negation of an element is exact (signed, floating and promoted types). For unsigned int and wider unsigned elements the code negates modulo 2^32, and the round trip fails (refuted)."
  },
  {
   "property": "C48",
   "status": "proved",
   "theorems": [
    "C48_bilinear_sample",
    "C48_bilinear_sample_int",
    "C48_bicubic_sample",
    "C48_bicubic_sample_int",
    "C48_bilinear_affine",
    "C48_bicubic_affine",
    "C48_constant",
    "C48_constant_int",
    "C48_bicubic_formula",
    "C48_bicubic_formula_int",
    "C48_between",
    "C48_between_int",
    "C48_outside",
    "C48_total",
    "C48_resize_sample",
    "C48_resize_same_size"
   ],
   "note": "Positions and floating values are rationals with exact arithmetic. Grid samples, affine images (hence constants), bounds by the neighbours at distance below one, zero outside, and success at every position, for floating and integral elements; the value of the bicubic interpolator at every interior position as the weighted sum of the sixteen samples around it (C48_bicubic_formula, C48_bicubic_formula_int); copyResizeBicubic over floating elements at landing positions."
  },
  {
   "property": "C49",
   "status": "partial",
   "theorems": [
    "C49_min",
    "C49_max",
    "C49_minmax",
    "C49_min_channels",
    "C49_max_channels",
    "C49_multichannel_refuted",
    "C49_count",
    "C49_count_policy",
    "C49_count_policy_exists",
    "C49_replace",
    "C49_unique"
   ],
   "note": "Proved for every strict weak order and every decidable equality (so not for NaN), all execution orders. C49_multichannel_refuted: min/max of a MultiChannel image always look at exactly three channels."
  },
  {
   "property": "C50",
   "status": "partial",
   "theorems": [
    "C50_sum_unsigned_partial",
    "C50_sum_uint8_refuted",
    "C50_sum_signed_partial",
    "C50_sum_floating",
    "C50_mean_floating",
    "C50_mean_unsigned_partial",
    "C50_mean_signed_refuted",
    "C50_results_exist"
   ],
   "note": "False for narrow element types: the accumulator has the element type, so the sum is taken modulo 2^n (C50_sum_uint8_refuted); a negative signed sum is divided as an unsigned number (C50_mean_signed_refuted). Proved: the exact result for every reduction order whenever the sum fits, and for floating elements in exact arithmetic."
  },
  {
   "property": "C51",
   "status": "partial",
   "theorems": [
    "C51_defined",
    "C51_triangle",
    "C51_throws",
    "C51_overflow_refuted"
   ],
   "note": "Pixels are integers in a range whose width fits the type of the difference (int for 8 and 16 bits); C51_overflow_refuted shows the int case where the difference overflows. The double accumulator is exact."
  },
  {
   "property": "C52",
   "status": "proved",
   "theorems": [
    "C52_raw",
    "C52_schedule",
    "C52_euclidean",
    "C52_lengths",
    "C52_overflow"
   ],
   "note": "Any distance function and any ordered field; with the default distance and a threshold in (0,1] restated for square roots. A threshold above one with only overflowing distances reports index 2^64-1 (C52_overflow)."
  },
  {
   "property": "C53",
   "status": "proved",
   "theorems": [
    "C53_robust",
    "C53_schedule",
    "C53_symmetric"
   ],
   "note": "Any distance function, any pair of schedules; also symmetric under exchange of the lists."
  },
  {
   "property": "C54",
   "status": "proved",
   "theorems": [
    "C54_rows",
    "C54_exact",
    "C54_few",
    "C54_scale",
    "C54_svd"
   ],
   "note": "Any ordered field and any null-space solver; C54_svd bounds the algebraic error of the matrix found with the library's own SVD over the reals."
  },
  {
   "property": "C55",
   "status": "proved",
   "theorems": [
    "C55_best",
    "C55_few",
    "C55_samples",
    "C55_ransac"
   ],
   "note": "Any scorer, any sequence of random draws (given as a list; the sampling loop need not terminate). Samples are four different matches; the result is a candidate of least total cost, for the inlier-count scorer one with most inliers."
  },
  {
   "property": "C56",
   "status": "partial",
   "theorems": [
    "C56_sequential",
    "C56_policy",
    "C56_canvas",
    "C56_default",
    "C56_agree_partial",
    "C56_empty",
    "C56_refuted",
    "C56_undefined",
    "C56_last_column_refuted"
   ],
   "note": "Full statement: the same picture with and without a policy. Refuted (C56_refuted): with the second picture left of or above the first, the sequential version translates after the projection instead of before. Proved: exact contents of both results (C56_sequential, C56_policy), agreement when no translation is needed (C56_agree_partial), the canvas (C56_canvas), undefined conversions (C56_undefined), the last column is cut off (C56_last_column_refuted). Exact rational arithmetic."
  },
  {
   "property": "C57",
   "status": "proved",
   "theorems": [
    "C57_test",
    "C57_extents"
   ],
   "note": ""
  },
  {
   "property": "C58",
   "status": "partial",
   "theorems": [
    "C58_default",
    "C58_refuted",
    "C58_safe",
    "C58_points",
    "C58_octaves",
    "C58_levels"
   ],
   "note": "Proved for at least three scale levels and octaves whose extents are all at least 20 when the difference of Gaussians accepts them, and for the functions of the code (difference_of_gaussian, lanczos_resample, default parameters) when all octaves have at least 28 x 28 pixels (C58_default): the search reads only what was generated, and all points are inside the image if the refined locations are. Refuted otherwise: the loop runs over the octaves asked for, not those generated (C58_refuted: 150 x 150 with the defaults), and with fewer than three levels the number of scales minus two wraps around."
  },
  {
   "property": "C59",
   "status": "partial",
   "theorems": [
    "C59_history_partial",
    "C59_found",
    "C59_listing",
    "C59_rename_self_refuted"
   ],
   "note": "History refinement: the calls, with names as typed, give the map the user has in mind, for all histories without a rename of a variable to itself. Renaming to itself loses the variable (refuted)."
  },
  {
   "property": "C60",
   "status": "proved",
   "theorems": [
    "C60_sanitize",
    "C60_idempotent"
   ],
   "note": "Full: the result is the one text that differs from the given one only by blanks and quotes at its ends and has none there."
  },
  {
   "property": "C61",
   "status": "proved",
   "theorems": [
    "C61_filter",
    "C61_total"
   ],
   "note": "Full."
  },
  {
   "property": "C62",
   "status": "partial",
   "theorems": [
    "C62_terminates",
    "C62_same_effect_partial",
    "C62_file_input_refuted",
    "C62_file_output_refuted",
    "C62_writes_file_refuted",
    "C62_last_argument_refuted",
    "C62_stale_refuted",
    "C62_types_refuted"
   ],
   "note": "Termination is unconditional. Same effect: for all registries whose commands satisfy well_behaved (values V are those that occur in the session; copy has the schema of an independent command, as in the code), all lines whose words are not pipe variables, all states without left-over pipe variables; commands the optimiser knows must work on variables (nice). C163 shows well_behaved of the program's own commands. Refuted: file inputs and outputs, copy to a file, surplus arguments, left-over pipe variables, refused types."
  },
  {
   "property": "C63",
   "status": "partial",
   "theorems": [
    "C63_words",
    "C63_composition_partial",
    "C63_line_partial",
    "C63_stale_refuted",
    "C63_policy_refuted",
    "C63_generator_refuted"
   ],
   "note": "Pipelines of meta transform commands without policy words, from the text of the line to the user's variables, also through the optimiser. Left-over pipe variables, policy words and generators are refuted."
  },
  {
   "property": "C64",
   "status": "proved",
   "theorems": [
    "C64_first",
    "C64_unknown"
   ],
   "note": "Full."
  },
  {
   "property": "C65",
   "status": "partial",
   "theorems": [
    "C65_round_trip_partial",
    "C65_slash_refuted",
    "C65_empty_name_refuted",
    "C65_stale_file_refuted",
    "C65_volume_refuted"
   ],
   "note": "Proved for every order in which the files are found: images of two dimensions below 2 GiB, names that can be file names, files that can be created, a directory without other image files, and two more files to open than RGB images. Refuted: names with a slash and the empty name are not restored, a stale file of another type may hide a variable, a three-dimensional image ends the saving."
  },
  {
   "property": "C66",
   "status": "partial",
   "theorems": [
    "C66_pointer_partial",
    "C66_dangling_refuted"
   ],
   "note": "Holds as long as no thread touches the variable between retrieval and read; otherwise the read is of an object that has ended (refuted)."
  },
  {
   "property": "C67",
   "status": "partial",
   "theorems": [
    "C67_append",
    "C67_predicates",
    "C67_predicates_total",
    "C67_find",
    "C67_count",
    "C67_count_target",
    "C67_count_batch",
    "C67_size",
    "C67_size_level_refuted",
    "C67_size_level_generated",
    "C67_max",
    "C67_min",
    "C67_max_projection",
    "C67_projection_refuted",
    "C67_empty_refuted",
    "C67_minmax",
    "C67_reduce",
    "C67_reduce_total",
    "C67_fold_right",
    "C67_fold_right_total",
    "C67_foreach_all",
    "C67_for_each",
    "C67_for_each_state_refuted",
    "C67_replace",
    "C67_remove",
    "C67_remove_value",
    "C67_copy",
    "C67_transform",
    "C67_transform_policy",
    "C67_transform_two",
    "C67_transform_short_refuted",
    "C67_flatten",
    "C67_generator"
   ],
   "note": "All of the statement is proved except: recursive_max/min throw when some inner container is empty although the flattened sequence is not (refuted for those, exact characterisation proved), a non-identity projection is applied twice (refuted), recursive_size with an unwrap level is the size of the first innermost container (refuted), recursive_for_each loses the state of its function object (refuted), recursive_transform of several containers is undefined if a later one is shorter (refuted; exact condition proved)."
  },
  {
   "property": "C68",
   "status": "partial",
   "theorems": [
    "C68_neutral",
    "C68_level",
    "C68_level_one",
    "C68_exact",
    "C68_level_exact",
    "C68_product_refuted",
    "C68_level_product_refuted",
    "C68_max_refuted",
    "C68_level_zero_refuted",
    "C68_order_refuted"
   ],
   "note": "Holds for associative and commutative operations for which T{} is neutral; for every other commutative and associative operation the exact result, with T{} mixed in, is proved. Refuted for products, maxima, the unwrap level 0 and non-commutative operations."
  },
  {
   "property": "C69",
   "status": "partial",
   "theorems": [
    "C69_address",
    "C69_assign",
    "C69_storage",
    "C69_fill",
    "C69_fill_refuted",
    "C69_fill_negative_refuted",
    "C69_data",
    "C69_data_refuted",
    "C69_images",
    "C69_images_empty_refuted",
    "C69_sizes_refuted",
    "C69_print"
   ],
   "note": "Addressing, assignment, storage, constructors and print for all volumes whose w*h*d is below 2^64. Refuted without that: the constructor from ints with a product of 2^64 or with negative extents, and the data constructor with a product that wraps, give volumes whose in-range coordinates are undefined; the constructor from three sizes initialises two members with themselves and is always undefined; an empty vector of images is undefined."
  },
  {
   "property": "C70",
   "status": "partial",
   "theorems": [
    "C70_add_partial",
    "C70_add_smaller_undefined",
    "C70_add_refuted"
   ],
   "note": "Exact for operands of equal extents; add compares no sizes: a smaller right operand is read past its end, a larger one silently cut off (refuted)."
  },
  {
   "property": "C71",
   "status": "proved",
   "theorems": [
    "C71_multiplies",
    "C71_pixelwise_multiplies",
    "C71_multiplies_mismatch_throws",
    "C71_divides_scalar",
    "C71_threshold",
    "C71_difference"
   ],
   "note": ""
  },
  {
   "property": "C72",
   "status": "proved",
   "theorems": [
    "C72_rgb_double_round_trip",
    "C72_gray_double_round_trip"
   ],
   "note": ""
  },
  {
   "property": "C73",
   "status": "partial",
   "theorems": [
    "C73_header",
    "C73_size_field_partial",
    "C73_size_field_refuted"
   ],
   "note": "All fields proved; the size field ignores row padding, so it is right exactly when width mod 4 = 0 (C73_size_field_partial, C73_size_field_refuted)."
  },
  {
   "property": "C74",
   "status": "proved",
   "theorems": [
    "C74_double_image",
    "C74_hsv_image"
   ],
   "note": "File cells are modelled as values of the element type after a 54-byte header; the byte representation of a double is not modelled."
  },
  {
   "property": "C75",
   "status": "partial",
   "theorems": [
    "C75_safe_partial",
    "C75_wrapped_size_refuted"
   ],
   "note": "Proved for every text whose header announces 3*width*height < 2^64 and a maximum in [0, INT_MAX); refuted when the product wraps."
  },
  {
   "property": "C76",
   "status": "partial",
   "theorems": [
    "C76_eigen",
    "C76_rate",
    "C76_not_square",
    "C76_small_refuted"
   ],
   "note": "Proved over the reals for symmetric matrices. A 1x1 matrix with a tolerance that is not positive reads outside the matrix (refuted)."
  },
  {
   "property": "C77",
   "status": "proved",
   "theorems": [
    "C77_null_vector",
    "C77_homogeneous"
   ],
   "note": "Proved over the reals with the explicit slack; max_iterations counts single rotations, so 100 rotations may stop before the tolerance is reached, which the second alternative covers."
  },
  {
   "property": "C78",
   "status": "partial",
   "theorems": [
    "C78_integral_partial",
    "C78_uint8_refuted",
    "C78_int32_refuted",
    "C78_ramp_refuted",
    "C78_empty_refuted"
   ],
   "note": "False as stated: for integral elements cubic_interpolate converts the fraction to the element type, so it is always 0 and the result is the pixel at or before the position (C78_integral_partial characterises this exactly for values up to 2^24); int values above 2^24 are rounded by the conversion to float and INT_MAX overflows on the way back; floating ramps are not reproduced; an empty source is undefined."
  },
  {
   "property": "C79",
   "status": "partial",
   "theorems": [
    "C79_defined",
    "C79_triangle",
    "C79_value",
    "C79_throws",
    "C79_uint32_refuted",
    "C79_array",
    "C79_range"
   ],
   "note": "Reals, exact arithmetic; elements convert injectively to double. C79_uint32_refuted: 32-bit unsigned pixels wrap before the conversion, the distance is then neither right nor symmetric. Range overload: modelled as its function object, the wrapper euclidean_distance(range, range) does not compile."
  },
  {
   "property": "C80",
   "status": "proved",
   "theorems": [
    "C80_refine",
    "C80_empty"
   ],
   "note": "Any ordered field and any null-space solver."
  },
  {
   "property": "C81",
   "status": "partial",
   "theorems": [
    "C81_warp",
    "C81_policy",
    "C81_blank",
    "C81_policy_refuted"
   ],
   "note": "Full statement: with and without a policy the same map. Refuted (C81_policy_refuted): the policy overload inverts the matrix first, so the two overloads apply opposite maps; each is characterised exactly (C81_warp, C81_policy). Missing from the full statement: agreement of the two."
  },
  {
   "property": "C82",
   "status": "proved",
   "theorems": [
    "C82_boolean"
   ],
   "note": "Full."
  },
  {
   "property": "C83",
   "status": "partial",
   "theorems": [
    "C83_mean",
    "C83_variance",
    "C83_variance_exists",
    "C83_deviation",
    "C83_deviation_empty",
    "C83_square_sum",
    "C83_root_mean_square",
    "C83_mean_signed_partial",
    "C83_mean_signed_refuted"
   ],
   "note": "Exact arithmetic in the real numbers. The mean of signed integers with a negative sum is converted to an unsigned number (refuted)."
  },
  {
   "property": "C84",
   "status": "proved",
   "theorems": [
    "C84_sum",
    "C84_sum_is",
    "C84_sum_refuted"
   ],
   "note": "Refuted for operations that are not associative and commutative. The statement describes this case; the refuted theorem shows that its condition is needed."
  },
  {
   "property": "C85",
   "status": "partial",
   "theorems": [
    "C85_one",
    "C85_two",
    "C85_sum",
    "C85_number",
    "C85_shape_refuted",
    "C85_shape_UB"
   ],
   "note": "All voxelwise operations on volumes of equal extents. Refuted for different extents: nothing is checked, the result has the shape of the first operand, and a second operand with fewer voxels is undefined behaviour. subtract and the compound assignments do not instantiate (they call members that do not exist)."
  },
  {
   "property": "C86",
   "status": "partial",
   "theorems": [
    "C86_refinement_partial",
    "C86_singular",
    "C86_isotropic",
    "C86_elongated_refuted"
   ],
   "note": "The offset solves Newton's equations exactly when the two second derivatives agree or the gradient is zero (the entries of the inverse are interchanged); refuted for an elongated quadratic. A patch with determinant zero has no finite location."
  },
  {
   "property": "C87",
   "status": "partial",
   "theorems": [
    "C87_filter",
    "C87_saddle_refuted",
    "C87_minimum_refuted"
   ],
   "note": "The exact condition is proved. Refuted: a saddle (negative determinant) passes, and no dark keypoint passes because the filter compares the value, not its absolute value."
  },
  {
   "property": "C88",
   "status": "partial",
   "theorems": [
    "C88_extrema",
    "C88_race",
    "C88_parallel_refuted"
   ],
   "note": "Exact for one thread, all images. Refuted for more: threads append to one vector without synchronisation."
  },
  {
   "property": "C89",
   "status": "partial",
   "theorems": [
    "C89_mapping",
    "C89_negative",
    "C89_singular_refuted"
   ],
   "note": "Proved for locations inside the octave. Refuted: accepted extrema can have no finite location (determinant zero) or one outside; the conversion to an index is then undefined."
  },
  {
   "property": "C90",
   "status": "proved",
   "theorems": [
    "C90_orientation",
    "C90_unique",
    "C90_extents"
   ],
   "note": ""
  },
  {
   "property": "C91",
   "status": "partial",
   "theorems": [
    "C91_histogram",
    "C91_border",
    "C91_border_refuted",
    "C91_total"
   ],
   "note": "Proved for points at least block_size from the left and upper border. Refuted nearer to them: the start index wraps around and all bins are zero."
  },
  {
   "property": "C92",
   "status": "partial",
   "theorems": [
    "C92_descriptor",
    "C92_small",
    "C92_border",
    "C92_border_refuted",
    "C92_block_refuted"
   ],
   "note": "Proved for block sizes of at least 8 and locations at least block_size from the left and upper border. A smaller block throws. Refuted nearer to these borders (all zeros), and for block sizes above 8 only the upper left 16 x 16 pixels of the block count."
  },
  {
   "property": "C93",
   "status": "partial",
   "theorems": [
    "C93_released_partial",
    "C93_bmp_refuted",
    "C93_failure_refuted",
    "C93_load_refuted"
   ],
   "note": "Proved for .dbmp and .hsv files whose extents are not -1. Refuted for BMP (the file is never closed: the last read before the limit gives an empty image, the next throws), for .dbmp files with an extent of -1, and for load_workspace on many BMP files."
  },
  {
   "property": "C94",
   "status": "proved",
   "theorems": [
    "C94_value",
    "C94_range",
    "C94_flat",
    "C94_too_small",
    "C94_not_2d",
    "C94_default_size"
   ],
   "note": "The exact value is stated for odd filter sizes (C94_value); the range, flat pictures and the exceptions for all sizes."
  },
  {
   "property": "C95",
   "status": "partial",
   "theorems": [
    "C95_peak",
    "C95_centred_refuted"
   ],
   "note": "False of the code: the filter is centred one entry too far, so everything moves by one pixel to the right and down for odd sizes (C95_centred_refuted, C95_peak); for even sizes it depends on the parity of the extents."
  },
  {
   "property": "C96",
   "status": "proved",
   "theorems": [
    "C96_figure",
    "C96_normalised",
    "C96_elliptic",
    "C96_centre"
   ],
   "note": "Extents of at least 1 for the separable figure."
  },
  {
   "property": "C97",
   "status": "proved",
   "theorems": [
    "C97_value",
    "C97_flat",
    "C97_too_small"
   ],
   "note": "Standard deviations whose filter size is below 2^31."
  },
  {
   "property": "C98",
   "status": "partial",
   "theorems": [
    "C98_octave",
    "C98_octave_too_small",
    "C98_search_ends",
    "C98_default_ends",
    "C98_default_undefined",
    "C98_refuted"
   ],
   "note": "The octaves themselves are right from 28 x 28 on (C98_octave). The statement is false of the code for octaves of 20 to 27 pixels, which pass the guard but are refused by the difference of Gaussians: the exception leaves an OpenMP loop, which ends the process (C98_octave_too_small, C98_search_ends, C98_default_ends, C98_refuted). With an octave below 20 pixels the search reads octaves that do not exist (C98_default_undefined)."
  },
  {
   "property": "C99",
   "status": "partial",
   "theorems": [
    "C99_value",
    "C99_weights",
    "C99_flat",
    "C99_identity",
    "C99_linear",
    "C99_mirror",
    "C99_not_2d",
    "C99_empty_refuted",
    "C99_range_refuted"
   ],
   "note": "Pictures of doubles with extents up to 2^31 - a (targets up to 2^50). The last sentence is false of the code as of every Lanczos filter: values over- and undershoot (C99_range_refuted); a source without pixels leads to undefined behaviour (C99_empty_refuted)."
  },
  {
   "property": "C100",
   "status": "partial",
   "theorems": [
    "C100_hsv",
    "C100_rgb",
    "C100_round_trip_partial",
    "C100_restored",
    "C100_refuted",
    "C100_hue_360",
    "C100_turn_refuted",
    "C100_value_undefined",
    "C100_image"
   ],
   "note": "Both conversions proved in exact arithmetic. The round trip is refuted (C100_refuted: the orange (255, 64, 0) comes back with another green channel, because the hue is the angle in the colour plane in one direction and the position on the hexagon in the other); proved instead: the largest and smallest channels come back in their places, and colours with two equal channels come back exactly. Hues of 360 and more give black (C100_hue_360, C100_turn_refuted)."
  },
  {
   "property": "C101",
   "status": "proved",
   "theorems": [
    "C101_value",
    "C101_injective",
    "C101_pure",
    "C101_image",
    "C101_image_injective"
   ],
   "note": "Proved."
  },
  {
   "property": "C102",
   "status": "partial",
   "theorems": [
    "C102_brightened",
    "C102_too_bright_undefined",
    "C102_refuted"
   ],
   "note": "Proved for factors that keep every pixel below 256. A brighter pixel is not limited: the conversion to uint8_t is undefined (C102_too_bright_undefined, C102_refuted)."
  },
  {
   "property": "C103",
   "status": "partial",
   "theorems": [
    "C103_turned",
    "C103_quarters_dropped",
    "C103_backwards_undefined",
    "C103_no_double_quarter",
    "C103_backwards_refuted"
   ],
   "note": "Partial: turning the other way is undefined behaviour (C103_backwards_undefined: for a square picture of side n and every angle from -45 degrees up to about -1/(n+1) radians the first pixel is converted from a value <= -1 or infinity). C103_turned holds for every angle strictly between 0 and 90 degrees in exact arithmetic, C103_quarters_dropped is the reduction of the angle, and C103_no_double_quarter shows that the comparison with the long double constant never succeeds for a double angle, so that a quarter turn given as a double is done by the scatter and keeps w x h."
  },
  {
   "property": "C104",
   "status": "proved",
   "theorems": [
    "C104_turned",
    "C104_nothing_lost",
    "C104_quarter_turns",
    "C104_default",
    "C104_default_int"
   ],
   "note": "C104_turned and C104_quarter_turns hold for every interpolator that is total and exact at the pixels; C104_default and C104_default_int show that the default one is, for floating and integral pixels. The constant pi is exact here."
  },
  {
   "property": "C105",
   "status": "partial",
   "theorems": [
    "C105_lens",
    "C105_order",
    "C105_order_refuted",
    "C105_disc"
   ],
   "note": "Partial: the order of distances is kept only for N <= 1 (C105_order); C105_order_refuted shows the fold for N = 2."
  },
  {
   "property": "C106",
   "status": "partial",
   "theorems": [
    "C106_root",
    "C106_beyond",
    "C106_centre",
    "C106_picture",
    "C106_wide_lens_undefined",
    "C106_wide_lens_refuted"
   ],
   "note": "Partial: a lens wider than the picture is undefined behaviour (C106_wide_lens_undefined: static_cast<std::size_t> of a negative rounded coordinate); C106_picture is for D0 up to half the width and half the height. C106_root has no such restriction."
  },
  {
   "property": "C107",
   "status": "proved",
   "theorems": [
    "C107_range",
    "C107_flat",
    "C107_bytes"
   ],
   "note": "Proved for two-dimensional pictures, whose windows never leave the padded picture; the element type is given by a nondecreasing idempotent conversion."
  },
  {
   "property": "C108",
   "status": "partial",
   "theorems": [
    "C108_sequential",
    "C108_quarter",
    "C108_transposed",
    "C108_mirrored_refuted"
   ],
   "note": "Partial: mirroring is refuted (C108_mirrored_refuted): differences of positions are taken in std::size_t, so neighbours to the left or above are taken to be about 2^64 away. C108_sequential gives the weights for every kernel, C108_quarter what is left for kernels that have died out there, C108_transposed the symmetry that remains."
  },
  {
   "property": "C109",
   "status": "proved",
   "theorems": [
    "C109_distance",
    "C109_metric",
    "C109_weight"
   ],
   "note": "Patch distance over reals with exact arithmetic."
  },
  {
   "property": "C110",
   "status": "proved",
   "theorems": [
    "C110_normal_equations",
    "C110_downhill",
    "C110_step"
   ],
   "note": "Reals instead of doubles. Derivatives in the sense of derivable_pt_lim, obtained from a total derivative (FrechetProofs)."
  },
  {
   "property": "C111",
   "status": "proved",
   "theorems": [
    "C111_result",
    "C111_guess",
    "C111_improves",
    "C111_errors"
   ],
   "note": "Reals instead of doubles: non-finite values are not modelled."
  },
  {
   "property": "C112",
   "status": "partial",
   "theorems": [
    "C112_stationary_kept",
    "C112_perfect_kept",
    "C112_progress",
    "C112_tolerance_refuted"
   ],
   "note": "Partial: the last sentence is refuted (C112_tolerance_refuted): for every positive tolerance there is a picture on which the fit stops at the first guess although the misfit is not stationary, away from all bounds. Progress is proved strictly inside the bounds of the parameters."
  },
  {
   "property": "C113",
   "status": "partial",
   "theorems": [
    "C113_drawn",
    "C113_fit_drawn",
    "C113_refuted"
   ],
   "note": "Partial: the amplitude of the parameters is ignored by the drawing (C113_refuted), so with the default factor the drawing does not reproduce the fitted function."
  },
  {
   "property": "C114",
   "status": "proved",
   "theorems": [
    "C114_figure3d"
   ],
   "note": "Reals instead of doubles."
  },
  {
   "property": "C115",
   "status": "proved",
   "theorems": [
    "C115_predicates",
    "C115_signs",
    "C115_size_same",
    "C115_check_size",
    "C115_refuted"
   ],
   "note": "C115_predicates and C115_signs hold for pictures of any number of dimensions; C115_size_same is exact for matrices and C115_refuted shows the size question saying yes for pictures [1,1,2] and [1,1,1]; C115_check_size is exact. The integer case of the sign tests is modelled. The statement describes this case; the refuted theorem shows that its condition is needed."
  },
  {
   "property": "C116",
   "status": "proved",
   "theorems": [
    "C116_normalize",
    "C116_unit",
    "C116_flat",
    "C116_refuted"
   ],
   "note": "C116_normalize and C116_unit over the reals with exact arithmetic; C116_flat and C116_refuted are the constant picture, with None for the value that is not a number and comparisons with it false as in IEEE 754. The statement describes this case; the refuted theorem shows that its condition is needed."
  },
  {
   "property": "C117",
   "status": "partial",
   "theorems": [
    "C117_inside",
    "C117_border",
    "C117_outside",
    "C117_refuted"
   ],
   "note": "C117_inside, C117_border and C117_outside cover the three cases; C117_refuted is a region starting in column 0, which is not highlighted. Regions with ends of 2^31 or more are not covered."
  },
  {
   "property": "C118",
   "status": "proved",
   "theorems": [
    "C118_generate",
    "C118_rejects",
    "C118_exception",
    "C118_refuted",
    "C118_four_refuted",
    "C118_wrap_refuted"
   ],
   "note": "C118_generate and C118_rejects cover all extents with a product below 2^64; C118_exception says which exception it is with at most three extents. The statement describes the exceptions, and the refuted theorems show each of them: 65536 by 65536 is rejected (C118_refuted), 65536, 1, 65536, 1 overflows an int (C118_four_refuted), and a wrapping product is accepted with too few pixels (C118_wrap_refuted). Lack of memory is not modelled."
  },
  {
   "property": "C119",
   "status": "proved",
   "theorems": [
    "C119_border",
    "C119_crop",
    "C119_rejects"
   ],
   "note": "C119_border, C119_crop and C119_rejects."
  },
  {
   "property": "C120",
   "status": "partial",
   "theorems": [
    "C120_homography",
    "C120_refuted"
   ],
   "note": "C120_homography covers all but the last sentence, with the exact condition under which the entries are all zero; C120_refuted: when no sample gives a matrix (collinear points and a legitimate solution of the system) the result is nine zeros, a matrix that is not empty. The detector, the descriptors and the solver are parameters."
  },
  {
   "property": "C121",
   "status": "partial",
   "theorems": [
    "C121_sequence",
    "C121_grows",
    "C121_singular_refuted"
   ],
   "note": "C121_sequence and C121_grows (conversions out of range undefined); C121_singular_refuted: a homography that is not empty but singular, such as the zeros of C120_refuted, is not treated as a failure: the width of an image without dimensions is read."
  },
  {
   "property": "C122",
   "status": "partial",
   "theorems": [
    "C122_draw_matches",
    "C122_refuted"
   ],
   "note": "C122_draw_matches, exact for every pixel (discs near the left or upper border are not drawn, see C25); C122_refuted: keypoints are not stretched with the pictures, so the ends of the lines miss them when the heights differ."
  },
  {
   "property": "C123",
   "status": "partial",
   "theorems": [
    "C123_frame",
    "C123_create",
    "C123_create_file",
    "C123_append",
    "C123_erase",
    "C123_get",
    "C123_refused",
    "C123_build",
    "C123_build_get",
    "C123_nested_refuted",
    "C123_bool_refuted"
   ],
   "note": "Proved for the real types of container; refuted parts: create_container from a container of numbers makes a container of containers that no other command takes, and get_element from a vector<bool> stores a _Bit_reference instead of a bool."
  },
  {
   "property": "C124",
   "status": "partial",
   "theorems": [
    "C124_transform",
    "C124_empty",
    "C124_scalars_refuted",
    "C124_failure",
    "C124_names_refuted",
    "C124_output_refuted"
   ],
   "note": "The results, their order and the frame are proved for both generic handlers, without a policy and with seq. Refuted parts: scalar results are thrown away without writing the output; a failing element leaves __tc_in_k behind (no policy) or terminates the program (seq); user variables named __tc_in_0 are destroyed and __tc_out_0 is taken for a result; an output that is no variable loses its first letter."
  },
  {
   "property": "C125",
   "status": "partial",
   "theorems": [
    "C125_parallel",
    "C125_same",
    "C125_failure_refuted"
   ],
   "note": "Proved for every interleaving of the six workspace steps of each thread. Refuted part: when the command fails for any element the program is terminated under every interleaving. unseq and par_unseq are outside the model: the standard does not define locking a mutex under them."
  },
  {
   "property": "C126",
   "status": "partial",
   "theorems": [
    "C126_remove",
    "C126_remove_all",
    "C126_all_refuted",
    "C126_rename",
    "C126_rename_refused"
   ],
   "note": "Refuted part: all among other arguments removes nothing."
  },
  {
   "property": "C127",
   "status": "proved",
   "theorems": [
    "C127_raii",
    "C127_all_closed",
    "C127_moves"
   ],
   "note": ""
  },
  {
   "property": "C128",
   "status": "partial",
   "theorems": [
    "C128_commands",
    "C128_first",
    "C128_loaded",
    "C128_skipped",
    "C128_shut_down",
    "C128_dangling_refuted",
    "C128_order_refuted"
   ],
   "note": "Proved as long as no registration function throws. Refuted parts: a plugin that throws after registering a command leaves a handler whose code is gone; of two plugins with the same command the directory order decides."
  },
  {
   "property": "C129",
   "status": "partial",
   "theorems": [
    "C129_size",
    "C129_written",
    "C129_refused",
    "C129_signed",
    "C129_refuted"
   ],
   "note": "Refuted part: text after the digits is ignored, so 12abc is read as 12."
  },
  {
   "property": "C130",
   "status": "partial",
   "theorems": [
    "C130_constant",
    "C130_nothing",
    "C130_refuted"
   ],
   "note": "An extent of zero stores nothing. Refuted part: extents whose product does not fit in 64 bits give an image with fewer pixels than its extents say."
  },
  {
   "property": "C131",
   "status": "partial",
   "theorems": [
    "C131_grid",
    "C131_refuted"
   ],
   "note": "Refuted part: a cell size of 0 is undefined behaviour (division by zero) for every non-empty grid."
  },
  {
   "property": "C132",
   "status": "partial",
   "theorems": [
    "C132_construct",
    "C132_planes",
    "C132_mismatch",
    "C132_refuted"
   ],
   "note": "Refuted parts: planes with one extent lose their pixels, and planes with three extents end the program under a policy."
  },
  {
   "property": "C133",
   "status": "partial",
   "theorems": [
    "C133_window",
    "C133_outside",
    "C133_refuted"
   ],
   "note": "Refuted part: an offset so large that offset plus size wraps passes the check; under a policy the program then ends."
  },
  {
   "property": "C134",
   "status": "partial",
   "theorems": [
    "C134_container",
    "C134_no_output",
    "C134_image",
    "C134_refuted"
   ],
   "note": "Proved for containers when the two types have the same sign, or target and elements are not negative. Refuted parts: -1 in a container of int is counted as equal to 4294967295; for images the result has a type the command does not expect, and nothing is ever stored (C134_image)."
  },
  {
   "property": "C135",
   "status": "partial",
   "theorems": [
    "C135_image",
    "C135_container",
    "C135_refuted"
   ],
   "note": "Proved for a target that is a value of the type of the pixels; for containers as in C134, and under a policy when target and new value have the same type. Refuted parts: a variable target is converted first, so 256 replaces the zeros of an 8-bit image; a policy makes the command fail for a container when the two values have different types."
  },
  {
   "property": "C136",
   "status": "partial",
   "theorems": [
    "C136_multiply",
    "C136_refuted"
   ],
   "note": "Products of doubles are taken to be exact. Proved for types of 2 to 53 bits. Refuted parts: half of true is true; for 64-bit types a product at the upper limit is undefined."
  },
  {
   "property": "C137",
   "status": "partial",
   "theorems": [
    "C137_exact",
    "C137_wraps",
    "C137_bool",
    "C137_refuted"
   ],
   "note": "Refuted parts: 200 + 100 in eight bits is 44, two true elements have the sum true, and a partial sum beyond int is undefined although the sum fits."
  },
  {
   "property": "C138",
   "status": "partial",
   "theorems": [
    "C138_parts",
    "C138_read",
    "C138_read_to",
    "C138_write",
    "C138_refuted"
   ],
   "note": "Refuted part: files with the same stem in different directories or of different kinds are stored under the same name."
  },
  {
   "property": "C139",
   "status": "partial",
   "theorems": [
    "C139_names",
    "C139_round_trip",
    "C139_refuted"
   ],
   "note": "File contents are values; C39, C41 and C77 treat the bytes. Refuted part: for every other extension the file written is not the one read, for example pic.png is written to pic.bmp."
  },
  {
   "property": "C140",
   "status": "proved",
   "theorems": [
    "C140_text",
    "C140_rows",
    "C140_no_axes",
    "C140_decides_int",
    "C140_decides_rgb",
    "C140_decides_multi",
    "C140_no_separator_refuted",
    "C140_empty_axis_refuted"
   ],
   "note": "How floating point pixels are written is not modelled; integers, RGB and MultiChannel of integers are. Refuted parts: an empty separator between integers, and pictures with an empty axis. The statement describes this case; the refuted theorem shows that its condition is needed."
  },
  {
   "property": "C141",
   "status": "proved",
   "theorems": [
    "C141_plain",
    "C141_plain_total",
    "C141_picture",
    "C141_picture_stream_refuted",
    "C141_info"
   ],
   "note": "Refuted part: the text on the stream that the command is given does not depend on the picture. The statement describes this case; the refuted theorem shows that its condition is needed."
  },
  {
   "property": "C142",
   "status": "proved",
   "theorems": [
    "C142_vars",
    "C142_blank_refuted"
   ],
   "note": "Only listed types; the line of an unlisted type is abstract. Refuted part: names that end in blanks. The statement describes this case; the refuted theorem shows that its condition is needed."
  },
  {
   "property": "C143",
   "status": "proved",
   "theorems": [
    "C143_latex",
    "C143_decides",
    "C143_empty_refuted"
   ],
   "note": "Refuted part: empty pictures. The statement describes this case; the refuted theorem shows that its condition is needed."
  },
  {
   "property": "C144",
   "status": "proved",
   "theorems": [
    "C144_decides",
    "C144_elements"
   ],
   "note": "Elements are integers."
  },
  {
   "property": "C145",
   "status": "proved",
   "theorems": [
    "C145_add",
    "C145_subtract",
    "C145_overflow",
    "C145_rgb",
    "C145_double",
    "C145_restores",
    "C145_restores_rgb",
    "C145_refused",
    "C145_saturation_refuted",
    "C145_rgb_double"
   ],
   "note": "All of it holds except the clamping: the command subtract uses operator-, which wraps modulo 256 where the library function subtract clamps (C145_saturation_refuted). Doubles are rational numbers. The statement describes this case; the refuted theorem shows that its condition is needed."
  },
  {
   "property": "C146",
   "status": "proved",
   "theorems": [
    "C146_image",
    "C146_container",
    "C146_again",
    "C146_least",
    "C146_rgb",
    "C146_refused",
    "C146_double",
    "C146_doubles",
    "C146_rgb_double"
   ],
   "note": "Integer, double, RGB and RGB_DOUBLE values; HSV, MultiChannel and complex are not modelled. Any schedule of the policy."
  },
  {
   "property": "C147",
   "status": "proved",
   "theorems": [
    "C147_max",
    "C147_min",
    "C147_unchanged",
    "C147_empty",
    "C147_rgb",
    "C147_double",
    "C147_rgb_double"
   ],
   "note": "Doubles are rational numbers, so NaN is not covered."
  },
  {
   "property": "C148",
   "status": "proved",
   "theorems": [
    "C148_int",
    "C148_symmetric",
    "C148_rgb",
    "C148_refused",
    "C148_overflow",
    "C148_double",
    "C148_rgb_double"
   ],
   "note": "Doubles are rational numbers; the sum is exact."
  },
  {
   "property": "C149",
   "status": "proved",
   "theorems": [
    "C149_planes",
    "C149_refused",
    "C149_double"
   ],
   "note": "Any schedule for constructRGB, any order of the loop of getPlane."
  },
  {
   "property": "C150",
   "status": "proved",
   "theorems": [
    "C150_rgb",
    "C150_gray",
    "C150_refused",
    "C150_range"
   ],
   "note": "Any order of the loops."
  },
  {
   "property": "C151",
   "status": "proved",
   "theorems": [
    "C151_channels",
    "C151_policy",
    "C151_image",
    "C151_colour",
    "C151_multichannel",
    "C151_pow"
   ],
   "note": "Finite doubles are real numbers; C151_multichannel is for any number of channels by planes."
  },
  {
   "property": "C152",
   "status": "proved",
   "theorems": [
    "C152_inverse",
    "C152_picture",
    "C152_identities",
    "C152_pow",
    "C152_whole_power",
    "C152_pow_zero",
    "C152_rounding",
    "C152_domain"
   ],
   "note": "Over the real numbers; the std functions of the C++ library are taken to be the mathematical ones."
  },
  {
   "property": "C153",
   "status": "proved",
   "theorems": [
    "C153_parts",
    "C153_to_complex",
    "C153_to_double",
    "C153_to_double_colour"
   ],
   "note": ""
  },
  {
   "property": "C154",
   "status": "partial",
   "theorems": [
    "C154_difference",
    "C154_unsigned",
    "C154_signed_refuted",
    "C154_distance",
    "C154_symmetric",
    "C154_zero",
    "C154_refused",
    "C154_extents_refuted",
    "C154_bytes_refuted",
    "C154_bytes"
   ],
   "note": "Partial because parts are false of the code: pictures of different extents with as many pixels are accepted (C154_extents_refuted), differences of RGB bytes wrap modulo 256 so that the distance depends on the order of the pictures (C154_bytes_refuted; correct when no byte of the first is below that of the second, C154_bytes), and the difference of signed bytes can be negative (C154_signed_refuted). Distances are over the real numbers."
  },
  {
   "property": "C155",
   "status": "proved",
   "theorems": [
    "C155_rand",
    "C155_rand1",
    "C155_consecutive",
    "C155_randi",
    "C155_randi_max",
    "C155_limits_undefined",
    "C155_negative_refuted"
   ],
   "note": "The statement describes the negative extents; C155_negative_refuted shows one such pair. Randomness itself is not modelled: an engine is any state with any step, and the bounds of the distributions are hypotheses."
  },
  {
   "property": "C156",
   "status": "proved",
   "theorems": [
    "C156_rand",
    "C156_nothing",
    "C156_size",
    "C156_refuted"
   ],
   "note": "The statement describes the overflow; C156_refuted is such an argument list. The seed is any state."
  },
  {
   "property": "C157",
   "status": "partial",
   "theorems": [
    "C157_extents",
    "C157_whole_turns",
    "C157_quarter_turns",
    "C157_refused",
    "C157_black",
    "C157_flat_refuted",
    "C157_symmetry_refuted",
    "C157_channels"
   ],
   "note": "Values are real numbers. The extents are proved for every angle (the mirror border needs kernels smaller than the picture); whole turns give exactly plain smoothing and the four quarter turns exact values for odd kernel sizes; refusals, black pictures and the three channels are proved. Two wishes are false and refuted: a flat picture need not stay flat at 45 degrees (C157_flat_refuted), and half a turn changes the result, because the kernel is centred one pixel off (C157_symmetry_refuted)."
  },
  {
   "property": "C158",
   "status": "proved",
   "theorems": [
    "C158_dct2",
    "C158_round_trip",
    "C158_few"
   ],
   "note": "Values are real numbers. The coefficients are the plain cosine sums of each channel, stated without the model's helpers."
  },
  {
   "property": "C159",
   "status": "proved",
   "theorems": [
    "C159_rotate",
    "C159_unturned",
    "C159_refused"
   ],
   "note": "Values are real numbers; pixel types of at most 53 bits. At angles whose turned-back positions are not whole the value is the bicubic or shear interpolation of C101 and is not restated here."
  },
  {
   "property": "C160",
   "status": "proved",
   "theorems": [
    "C160_resample",
    "C160_same_size",
    "C160_black",
    "C160_refused"
   ],
   "note": "Values are real numbers; extents up to 2^50 and extent plus radius up to 2^31. Whole-number pixels are cut off to their range."
  },
  {
   "property": "C161",
   "status": "proved",
   "theorems": [
    "C161_normalize",
    "C161_normalize_refused",
    "C161_figure",
    "C161_figure_refused"
   ],
   "note": "Values are real numbers. normalize is proved for pictures of every dimension that are not constant; the figure for extents of at least 1."
  },
  {
   "property": "C162",
   "status": "partial",
   "theorems": [
    "C162_multiply",
    "C162_grey_policy",
    "C162_refused",
    "C162_colour_policy",
    "C162_policy_refuted",
    "C162_type_refuted"
   ],
   "note": "Doubles are real numbers. Proved for pictures of doubles, integers of 2 to 53 bits and colours; bool pictures and containers are not modelled. Refuted: that a policy does not change the result (type and end of the program)."
  },
  {
   "property": "C163",
   "status": "partial",
   "theorems": [
    "C163_same_effect",
    "C163_integers_refuted",
    "C163_colours_refuted"
   ],
   "note": "Uses the theorem of C62 with the modelled commands dct2, idct2, multiply and copy, instead of abstract ones. Doubles are real numbers, so idct2 undoes dct2 exactly. Pictures read from files are 8-bit colours, so the theorem asks that no picture is read from a file (load_file gives only grey doubles); lines satisfy the conditions of C62. Refuted for integers and for colours."
  },
  {
   "property": "C164",
   "status": "partial",
   "theorems": [
    "C164_doubles",
    "C164_kernel",
    "C164_same_size",
    "C164_integers",
    "C164_refused",
    "C164_integers_refuted"
   ],
   "note": "Proved for doubles (C164_doubles, C164_kernel, C164_same_size, C164_refused). False for integers: C164_integers says what is stored (values up to 2^24), C164_integers_refuted is a session in which the doubles give 50 and the bytes 0. Positions and values are exact; the rounding to float is not modelled."
  },
  {
   "property": "C165",
   "status": "partial",
   "theorems": [
    "C165_octave",
    "C165_default",
    "C165_few_levels",
    "C165_refused",
    "C165_small_refuted"
   ],
   "note": "Proved for all levels, deviations and factors whose kernels fit the picture (C165_octave), for the defaults from 28 x 28 on (C165_default), and for the cases that change nothing. That the program never ends is false: C165_default, C165_small_refuted."
  },
  {
   "property": "C166",
   "status": "partial",
   "theorems": [
    "C166_search",
    "C166_flat",
    "C166_small",
    "C166_refused",
    "C166_unknown_name",
    "C166_small_refuted"
   ],
   "note": "Proved for octaves of at least 28 x 28 pixels (C166_search, C166_flat) and for the cases that change nothing; the mapping of a location that lies outside is described by C89 and may be undefined. That the program never ends is false: C166_small, C166_small_refuted."
  },
  {
   "property": "C167",
   "status": "proved",
   "theorems": [
    "C167_warp",
    "C167_rgb"
   ],
   "note": "Theorems about the grid of threads with any order of the threads (launch_ok). The element type is a byte, FloatingType is the rational numbers, and fabsf passes the value through unchanged (in the code it is rounded to float). C167_warp gives every pixel of the canvas; C167_rgb the three planes."
  },
  {
   "property": "C168",
   "status": "proved",
   "theorems": [
    "C168_no_leak",
    "C168_reported",
    "C168_throws",
    "C168_sizes",
    "C168_once",
    "C168_twice"
   ],
   "note": "The answers of the runtime calls are arbitrary (works). C168_no_leak: nothing stays allocated if the releases of the handler work; C168_reported, C168_throws: a result means that every call worked, and a failing call throws; C168_sizes; C168_once and C168_twice: each buffer is released once, except that a failing second release hands both buffers to cudaFree again. Errors left over from earlier launches are not modelled."
  },
  {
   "property": "C169",
   "status": "partial",
   "theorems": [
    "C169_agree",
    "C169_border_refuted",
    "C169_scale_refuted"
   ],
   "note": "C169_agree covers positions on a pixel, in the interior, off the source and degenerate on both sides. Agreement everywhere is false: C169_border_refuted, C169_scale_refuted."
  },
  {
   "property": "C170",
   "status": "partial",
   "theorems": [
    "C170_stitched",
    "C170_empty",
    "C170_place_refuted"
   ],
   "note": "C170_stitched describes every pixel of the canvas for the code as it is; that the second picture appears where the homography puts it is false (C170_place_refuted), as for the sequential version on the CPU (C56)."
  },
  {
   "property": "C171",
   "status": "proved",
   "theorems": [
    "C171_coefficients",
    "C171_back",
    "C171_refused"
   ],
   "note": "double is the real numbers. The order of the loop over the pixels is arbitrary; pictures of different sizes in one stack are not covered."
  },
  {
   "property": "C172",
   "status": "proved",
   "theorems": [
    "C172_colours",
    "C172_undefined",
    "C172_refused"
   ],
   "note": "double is the real numbers; the value of every pixel is given by the hexcone formula of C100."
  },
  {
   "property": "C173",
   "status": "partial",
   "theorems": [
    "C173_doubles",
    "C173_colours",
    "C173_complex",
    "C173_unchanged",
    "C173_integers_refuted"
   ],
   "note": "Proved for doubles, HSV, RGB_DOUBLE and complex data; the rest changes nothing (C173_unchanged), which for integers contradicts the title: C173_integers_refuted. MultiChannel images other than these are not modelled."
  },
  {
   "property": "C174",
   "status": "proved",
   "theorems": [
    "C174_estimate",
    "C174_first_guess",
    "C174_unchanged"
   ],
   "note": "double is the real numbers with exact arithmetic, and integers have at most 53 bits. The estimator is a relation that allows every order of the sums; C174_estimate shows that the outcome is unique."
  },
  {
   "property": "C175",
   "status": "partial",
   "theorems": [
    "C175_exact",
    "C175_bytes",
    "C175_unsigned",
    "C175_doubles",
    "C175_lengths",
    "C175_narrow_refuted"
   ],
   "note": "exact, bytes, unsigned and floating elements proved for the loop and for every order of the reduction; _narrow_refuted: the result has the type of the elements. libstdc++ keeps the partial sums in that type."
  },
  {
   "property": "C176",
   "status": "proved",
   "theorems": [
    "C176_sort",
    "C176_ends",
    "C176_hsv_order"
   ],
   "note": "std::ranges::sort by its specification (a permutation in increasing order); HSV channels as real numbers, so NaN is outside."
  },
  {
   "property": "C177",
   "status": "partial",
   "theorems": [
    "C177_same",
    "C177_unknown",
    "C177_blanks_refuted"
   ],
   "note": "for all registries; _blanks_refuted: a word with a blank is two words of the line."
  },
  {
   "property": "C178",
   "status": "partial",
   "theorems": [
    "C178_values",
    "C178_identity",
    "C178_extents_refuted"
   ],
   "note": "extents and values for all block sizes; _extents_refuted: 23 columns and planes narrower than a block."
  },
  {
   "property": "C179",
   "status": "proved",
   "theorems": [
    "C179_planes",
    "C179_planes_multichannel",
    "C179_lens",
    "C179_lens_not_2d",
    "C179_lens_integral",
    "C179_turned",
    "C179_turned_multichannel",
    "C179_default_doubles",
    "C179_default_bytes",
    "C179_degrees",
    "C179_degrees_colours",
    "C179_bilateral"
   ],
   "note": "Proved for any schedule of the planes. The interpolator is any function exact at the pixels; the default ones for doubles and bytes are shown to be. Angles and weights are real numbers; the rounding of pi and of the trigonometric functions is not modelled."
  },
  {
   "property": "C180",
   "status": "partial",
   "theorems": [
    "C180_listing",
    "C180_decides",
    "C180_blank_refuted",
    "C180_order",
    "C180_plugins",
    "C180_execute",
    "C180_columns",
    "C180_columns_refuted"
   ],
   "note": "Full for the listing, its injectivity, the order of registrations and execute. Refuted: columns for the program's longer names (15 < length); a name ending in a blank is not told from the name without it."
  },
  {
   "property": "C181",
   "status": "partial",
   "theorems": [
    "C181_middle",
    "C181_first",
    "C181_last",
    "C181_generators_refuted",
    "C181_four_generators",
    "C181_independent_refuted",
    "C181_knows",
    "C181_policy_refuted"
   ],
   "note": "From the text of the line to the arguments of each stage. The places where handlers look (HelpModel.usages) are transcribed from the handlers. Refuted: the generators whose output comes first, copy, and a policy word in front of the second operand of add."
  },
  {
   "property": "C182",
   "status": "proved",
   "theorems": [
    "C182_meaning",
    "C182_questions",
    "C182_class",
    "C182_exponent",
    "C182_no_exponent",
    "C182_sign",
    "C182_zero_sign",
    "C182_channels",
    "C182_ints"
   ],
   "note": "On the bits, for all patterns. The functions of the C library are modelled on the fields of the pattern with the constants of x86-64 Linux."
  },
  {
   "property": "C183",
   "status": "partial",
   "theorems": [
    "C183_doubles",
    "C183_images",
    "C183_self",
    "C183_constant",
    "C183_nan",
    "C183_hsv_order",
    "C183_hsv_nan_refuted",
    "C183_zeros"
   ],
   "note": "Full for images and doubles. The order of colours: proved without NaN (infinities and both zeros included); _hsv_nan_refuted: with a NaN hue ties are not transitive, so NaN colours cannot be keys."
  },
  {
   "property": "C184",
   "status": "partial",
   "theorems": [
    "C184_addition",
    "C184_sum_exact",
    "C184_sum_bytes",
    "C184_sum_order",
    "C184_sum_of_any",
    "C184_mean",
    "C184_assign",
    "C184_undo",
    "C184_grouping_refuted",
    "C184_mean_refuted",
    "C184_undo_refuted",
    "C184_overflow_refuted"
   ],
   "note": "The last sentence is refuted: grouping (2^53 + 0.75 + 0.75), the mean of seven pixels 0.9, the mean of two greatest doubles, and 0.75 + 2^53 - 2^53. Everything before it is proved in full."
  },
  {
   "property": "C185",
   "status": "partial",
   "theorems": [
    "C185_hsv2rgb",
    "C185_hsv2rgb_total",
    "C185_saturation",
    "C185_total",
    "C185_hue",
    "C185_direction",
    "C185_round_trip",
    "C185_reds",
    "C185_greys",
    "C185_powers",
    "C185_red_refuted"
   ],
   "note": "Every colour has a result in range and near its exact hue and saturation; largest channel kept and smallest kept or one less for every colour; greys, reds and powers of two proved. That reds always come back exactly is refuted by 3, 2, 2. The arc cosine of the library is trusted to 2^-50."
  },
  {
   "property": "C186",
   "status": "proved",
   "theorems": [
    "C186_sum",
    "C186_order",
    "C186_relative",
    "C186_finite",
    "C186_mean",
    "C186_undo"
   ],
   "note": "Gradual underflow included. Uses the model of C184; additions and divisions round to nearest, ties to even."
  },
  {
   "property": "C187",
   "status": "partial",
   "theorems": [
    "C187_normalize",
    "C187_total",
    "C187_again",
    "C187_constant",
    "C187_overflow",
    "C187_nan",
    "C187_strict_refuted",
    "C187_range_refuted"
   ],
   "note": "Everything stated for finite pixels that differ and whose range does not overflow is proved, as are the results for one value, an overflowing range and NaN. Refuted: that the order is kept strictly (0, the smallest double and 4) and that finite pixels that differ always give numbers (the greatest double and its negative)."
  },
  {
   "property": "C188",
   "status": "partial",
   "theorems": [
    "C188_zero",
    "C188_symmetric",
    "C188_error",
    "C188_total",
    "C188_self_refuted",
    "C188_triangle_refuted"
   ],
   "note": "Everything stated is proved; refuted are distance 0 of an image to itself when a pixel is infinite, and the triangle inequality (from -3 to 2^54 by way of 0)."
  },
  {
   "property": "C189",
   "status": "partial",
   "theorems": [
    "C189_zero",
    "C189_total",
    "C189_exact",
    "C189_root",
    "C189_error",
    "C189_zero_refuted",
    "C189_overflow_refuted"
   ],
   "note": "Everything stated is proved; refuted are that different numbers are never at distance 0 (the smallest double and 0) and that the distance is finite whenever the difference is (2^600 and 0). Assumes that products and sums are not contracted to fused operations."
  }
 ]
}