# Design of the TinyDIP model and proofs

## What is modelled, and how

The subject is the C++ text in /repo at the pinned commit. Nothing is compiled or run; every model
definition cites the file and lines it was read from.

Conventions used by every model file (`rocq/theories/*.v`, Coq 8.16.1):

* **Outcomes.** A C++ call is a function into `res A := Ok a | Throw e | UB`. `Throw` carries the
  exception class (`runtime_error`, `out_of_range`, `logic_error`, `invalid_argument`). `UB` is a distinct
  outcome, produced by every unchecked out-of-range read or write, so a theorem that says `f x = Ok y`
  also says that no stray access happens.
* **Images.** `Image<T>` is a record of the extents (`list nat`) and the element vector (`list A`),
  for an arbitrary element type `A`. First dimension fastest, as in `calculateIndex`.
* **size_t.** Extents and indices are `nat` where the code only adds and multiplies quantities bounded
  by a stored size. Wherever the code can wrap (subtraction on `size_t`, products of caller-supplied
  extents, sums of caller-supplied offsets) the model uses `Z` with an explicit `mod 2^64`.
* **Loops** are folds over the index range in the code's order; loops run under an execution policy
  are folds over an arbitrary permutation of the index range.
* **Floating point** is idealised: `double` arithmetic is exact arithmetic over `Q` or `R`
  (stated per property). Rounding, NaN and infinities are not modelled, except in FloatModel, RoundModel, HueModel, NormModel, DistModel and SquareModel.
* **Element types.** `uint8_t` is `Z` with an explicit `mod 256`.
* **Undefined and unspecified library behaviour** (`std::random_device`, hash order, iostream formatting
  of doubles, filesystem) is a section parameter or is left out, as said per property.

File roles: `*Model.v` holds definitions only; `*Proofs.v` (or the second half of a file) holds lemmas;
`Prop*.v` holds only the property theorems, each closed by `exact`, with `Print Assumptions`,
next to non-vacuity `Example`s.

When the code violates the property as a user would state it, the full statement is kept, a theorem
`..._refuted` exhibits a witness, and a theorem `..._partial` proves the strongest correct part.

## Plan per property (written before the proofs)

| id | modelled as | proof |
|----|-------------|-------|
| C01 | `calculateIndex` over a list of extents | induction on the extent list: mixed radix bound, injectivity, surjectivity |
| C02 | `at` = arity check, bound check, offset read into `res` | case analysis on the checks, C01 |
| C03 | list of (coordinate, value) writes folded over `set` | induction on the history, C01 injectivity |
| C04 | every constructor as a function into `res image` | invariant `length pix = product dims`; ragged rows refute it |
| C05 | `linear_index_to_indices` div/mod loop | induction on extents |
| C06 | `pixel_iterator` as a step machine (pointer, x, y) run until `end` | invariant over steps |
| C07 | both `set` overloads | frame lemma for list update |
| C08 | `operator+=` etc. as zip after size check | pointwise, group laws over a section operation |
| C09 | product `mod 2^64` in `Z`, refinement to the `nat` model when there is no wrap | refutation witness and refinement lemma |
| C10 | channel-wise `mod 256` | `Z` modular arithmetic |
| C11, C12 | nested write loops into a fresh image | scatter lemma (distinct target cells) |
| C13 | `rotate_detail` step, `rotate` angle reduction over `R` | scatter lemma; refutation for multiples of a quarter turn |
| C14 | per-element loop with `size_t` wrap on the start offset in `Z` | div/mod + wrap analysis |
| C15 | loop with the code's bound check | partial + refutation |
| C16-C19 | loops over cells / list of images | scatter lemma, block decomposition |
| C20-C22 | composition of the modelled crop/flip/concat functions, as in the code | coordinate algebra through the specs of the parts |
| C23, C24 | step machines on `Z` with fuel, out of fuel excluded | error-term invariant, least-row invariant |
| C25 | wrap in `Z` | partial (away from the border) + refutation |
| C26, C27 | accumulation loops over a commutative ring | sum reindexing, induction on dimension |
| C28 | in-place loop over an arbitrary order | refutation by two orders |
| C29 | scatter over an arbitrary permutation | permutation induction |
| C30, C31 | map/zip models | pointwise |
| C32-C36 | association list / dense vector; `Q` for probabilities | induction on the pixel list; argmax invariant |
| C37-C39 | byte-level reader and writer | round trip by row induction; reader totality with UB outcome |
| C40, C41 | token-level and character-level reader/writer | induction on text; refutation for 8-bit CSV |
| C42-C45 | matrices as `list` with row-major indexing over a ring/field | sums, `ring`/`field`, elimination invariant |
| C46, C47 | sums of cosines / roots of unity over `R` | telescoping orthogonality |
| C48 | over `R` | convexity, partition of unity |
| C49-C51 | folds over the pixel list | induction |
| C52, C53 | scan loop with best/second best; arbitrary insertion order | loop invariant, permutation |
| C54, C55 | rows over a field; scan over an arbitrary sample list | `field`, argmin invariant |
| C56 | both variants' composite maps over a field | refutation |
| C57, C58 | list of neighbours; index bookkeeping | case analysis; refutation |
| C59-C66, C93 | finite map state machine; string functions over `list ascii`; rewriting system on command lists | invariants over histories, simulation, refutations |
| C66 | interleaving semantics of locked map operations plus later dereference | refutation + partial |
| C67, C68 | nested containers as an inductive tree | structural induction |
| C69 | as C01 for three dimensions; constructor reading its own uninitialised member is UB | arithmetic; refutation |

## Trusted base

* Coq 8.16.1's kernel (and `coqchk`).
* The axioms `Print Assumptions` lists under each theorem (the command follows each theorem in the
  `Prop*.v` files). No axiom is declared in this development. Every theorem is closed under the global
  context except those named in the section "Axioms" below.
* The reading of the C++ text: the theorems are about the model.

## Axioms

Every theorem not named here reports `Closed under the global context`. The theorems below are stated over
Coq's real numbers and report axioms of the standard library only:

| axioms | theorems |
|--------|----------|
| `ClassicalDedekindReals.sig_forall_dec`, `ClassicalDedekindReals.sig_not_dec`, `FunctionalExtensionality.functional_extensionality_dep` | C157_extents, C157_whole_turns, C157_quarter_turns, C157_refused, C157_black, C157_flat_refuted, C157_channels, C107_range, C108_sequential, C108_quarter, C108_transposed, C108_mirrored_refuted, C154_distance, C154_symmetric, C154_zero, C154_refused, C154_extents_refuted, C154_bytes_refuted, C154_bytes, C110_normal_equations, C110_downhill, C110_step, C111_result, C111_guess, C111_improves, C111_errors, C112_stationary_kept, C112_perfect_kept, C112_progress, C112_tolerance_refuted, C113_drawn, C113_fit_drawn, C46_coefficients, C46_idct_dct, C46_dct_idct, C46_volume, C46_three_channels, C47_coefficients, C47_round_trip_partial, C47_energy, C47_unsigned_refuted, C94_value, C94_range, C94_too_small, C94_not_2d, C94_default_size, C96_figure, C96_normalised, C96_elliptic, C97_value, C97_flat, C97_too_small, C98_octave, C98_octave_too_small, C98_search_ends, C178_values, C178_identity, C178_extents_refuted, C165_octave, C165_default, C165_few_levels, C165_refused, C166_refused, C166_unknown_name, C165_small_refuted, C52_euclidean, C83_deviation, C83_deviation_empty, C83_root_mean_square, C179_lens, C179_lens_not_2d, C179_lens_integral, C179_turned, C179_turned_multichannel, C179_degrees, C179_degrees_colours, C179_bilateral, C79_defined, C79_triangle, C79_value, C79_throws, C79_uint32_refuted, C79_array, C99_not_2d, C99_empty_refuted, C163_same_effect, C163_integers_refuted, C163_colours_refuted, C171_coefficients, C171_back, C171_refused, C174_estimate, C174_first_guess, C174_unchanged, C158_dct2, C158_round_trip, C158_few, C159_rotate, C159_unturned, C159_refused, C160_black, C160_refused, C161_figure, C161_figure_refused, C104_turned, C104_nothing_lost, C104_quarter_turns, C106_beyond, C106_centre, C106_picture, C106_wide_lens_undefined, C189_zero, C189_total, C189_root, C189_zero_refuted, C189_overflow_refuted |
| `ClassicalDedekindReals.sig_forall_dec`, `ClassicalDedekindReals.sig_not_dec`, `Classical_Prop.classic`, `FunctionalExtensionality.functional_extensionality_dep` | C157_symmetry_refuted, C109_weight, C100_hsv, C100_round_trip_partial, C100_restored, C100_refuted, C100_image, C102_brightened, C102_too_bright_undefined, C102_refuted, C151_channels, C151_policy, C151_image, C151_colour, C151_multichannel, C151_pow, C152_inverse, C152_picture, C152_identities, C152_pow, C152_whole_power, C152_pow_zero, C152_rounding, C152_domain, C113_refuted, C114_figure3d, C95_peak, C95_centred_refuted, C96_centre, C54_svd, C76_eigen, C76_not_square, C76_small_refuted, C77_null_vector, C77_homogeneous, C166_search, C166_flat, C166_small, C166_small_refuted, C99_value, C99_weights, C99_flat, C99_identity, C99_linear, C99_mirror, C99_range_refuted, C58_default, C98_default_ends, C98_default_undefined, C98_refuted, C58_refuted, C90_orientation, C90_unique, C90_extents, C91_histogram, C91_border, C91_border_refuted, C91_total, C92_descriptor, C92_small, C92_border, C92_border_refuted, C92_block_refuted, C160_resample, C160_same_size, C103_turned, C103_quarters_dropped, C103_backwards_undefined, C103_no_double_quarter, C103_backwards_refuted, C105_lens, C105_order, C105_order_refuted, C105_disc, C106_root, C106_wide_lens_refuted, C185_saturation, C185_total, C185_hue, C185_direction, C185_round_trip, C185_reds, C185_greys, C185_powers, C185_red_refuted |
| `ClassicalDedekindReals.sig_forall_dec`, `FunctionalExtensionality.functional_extensionality_dep` | C109_distance, C109_metric, C100_rgb, C100_hue_360, C100_turn_refuted, C100_value_undefined, C101_value, C101_injective, C101_pure, C101_image, C101_image_injective, C182_meaning, C182_questions, C182_class, C182_exponent, C182_no_exponent, C182_sign, C182_zero_sign, C183_doubles, C183_self, C183_constant, C183_nan, C183_hsv_order, C116_normalize, C116_unit, C116_flat, C116_refuted, C175_doubles, C176_hsv_order, C76_rate, C164_doubles, C164_kernel, C164_same_size, C164_integers, C164_refused, C164_integers_refuted, C52_lengths, C83_mean, C83_variance, C83_variance_exists, C83_square_sum, C179_default_doubles, C179_default_bytes, C79_range, C162_multiply, C162_grey_policy, C162_refused, C162_colour_policy, C162_policy_refuted, C162_type_refuted, C57_test, C57_extents, C58_safe, C58_points, C58_octaves, C58_levels, C86_refinement_partial, C86_singular, C86_isotropic, C86_elongated_refuted, C87_filter, C87_saddle_refuted, C87_minimum_refuted, C88_extrema, C88_race, C88_parallel_refuted, C89_mapping, C89_negative, C89_singular_refuted, C172_colours, C172_undefined, C172_refused, C161_normalize, C161_normalize_refused, C104_default, C104_default_int, C184_addition, C184_sum_exact, C184_sum_bytes, C184_sum_order, C184_sum_of_any, C184_mean, C184_assign, C184_undo, C184_grouping_refuted, C184_mean_refuted, C184_undo_refuted, C184_overflow_refuted, C185_hsv2rgb, C185_hsv2rgb_total, C186_sum, C186_order, C186_relative, C186_finite, C186_mean, C186_undo, C187_normalize, C187_total, C187_again, C187_constant, C187_overflow, C187_nan, C187_strict_refuted, C187_range_refuted, C188_zero, C188_symmetric, C188_error, C188_total, C188_self_refuted, C188_triangle_refuted, C189_exact, C189_error |
| `ClassicalDedekindReals.sig_forall_dec` | C175_lengths, C155_rand, C156_rand, C173_doubles, C173_colours, C173_complex, C173_unchanged, C173_integers_refuted |


## Code that is modelled

| theory | code | left out |
|--------|------|----------|
| ImageModel, IndexModel | image.h: constructors, at, at_without_boundary_check, get, set, count, getStride, setAllValue, compound assignment, cast, pixels_with_coordinates; image_operations.h: linear_index_to_indices | printing, OpenCV interop, `operator<<`, file-backed constructors |
| GeomModel | image_operations.h: transpose, flips, quarter turn, subimage, subimage2, split, split_overlap, concat family, paste2D, the three paddings, resize by nearest neighbour | doubles in subimage's size/2 (exact below 2^53) |
| RotateModel | rotate, rotate_detail for multiples of a quarter turn and the angle reduction | sampling at other angles, shear variant |
| DrawModel | draw_line, draw_circle, draw_point(s) | draw_if_possible's callback overloads |
| PixelModel | base_types.h operators; getPlane, constructRGB/HSV/MultiChannel, apply_each, pixelwise_transform, add, subtract, multiplies, divides, difference, threshold, im2double, im2uint8; the parallel step semantics | SIMD overloads |
| ConvModel | conv2, convolution, convolution_detail, windowed_filter, get_center_location | progress callback, OpenMP branch, conv2 over RGB (plane-wise by apply_each) |
| HistModel | histogram.h: constructors, addCount, getCount, getCountSum, operator[], normalize, to_probabilities_vector (dense); image_operations.h: histogram, histogram_normalized, histogram_with_bins, normalize_histogram, otsu_threshold; std::reduce as any permutation and grouping | operator+, +=, -, -= and the sparse to_probabilities_vector (do not compile), begin/end (dangling) |
| BmpModel | image_io.cpp: raw_image_to_array, bmp_read_x_size, bmp_read_y_size, bmp_read_detail, bmp_file_read, bmp_read, bmp_write, array_to_raw_image, bmp_filling_byte_calc, double_image::read/write, hsv_read, hsv_write | file names, missing files (runtime_error), prints and prompts; the reader follows the unsigned 32-bit members (base_types.h:223-228) for every header; for bmp_write, extents that do not fit in int, and for the files of doubles, negative extents and products of 2^31 and more, are mapped to UB; the byte representation of doubles |
| TextModel | image_io.h: write_to_csv, ParseCSVRow, read_from_csv, pnm::read_pnm_token, shift_color_value, ProcessPPMData, pnm::read, pnm::write | file names and missing files; characters are their codes; number printing and parsing (operator<<, stoi, stoull, stod, operator>>) is modelled in the classic locale, doubles only where they hold integers; allocation failure is a parameter `cap` |
| OField, LinModel | linear_algebra.h: Matrix, transpose, multiply, is_symmetry (both), invert; image_operations.h: is_symmetry, determinant3x3, solve_linear_system | printing and element-wise operators; doubles are elements of an arbitrary ordered field (exact arithmetic) |
| JacobiModel | linear_algebra.h: jacobi_eigen_solver, svd_solve_ah_zero | doubles are Coq's real numbers; atan2 without signed zeros; NaN |
| FourierModel | image_operations.h: dct3_one_plane (with and without a policy), dct3, idct3_one_plane, dct2, idct2 (one and three channels), dft2, idft2 | floating point is Coq's real numbers; complex elements of the cosine transform; idct3 does not compile (it passes a pixel type as range type), its planes are covered by idct3_one_plane |
| InterpModel | image_operations.h: bilinear_interpolate, cubic_kernel, default_bicubic_interpolator, cubic_interpolate, bicubicPolate, copyResizeBicubic (one channel; three channels are plane by plane) | positions and floating values are rationals with exact arithmetic (rounding is modelled only for the conversion of an integer to float); complex elements; wrap-around of the products in cubic_interpolate for integral elements (multiplied by a fraction that is 0) |
| ReduceModel | image_operations.h: min, max, minmax, count, replace, unique_value, sum, mean, manhattan_distance, euclidean_distance (images of one channel, arrays), squared_euclidean_distance (sequential); basic_functions.h: recursive_reduce of one level, two_input_map_reduce | multichannel distances; standard algorithms by their specification (std::reduce: any permutation and grouping); NaN |
| MatchModel | image_operations.h: find_keypoint_matches, find_raw_matches, find_robust_matches | distances are elements of an ordered field; any DistanceFunction; console output; termination of the program by an exception under a parallel policy is modelled as the throw |
| HomModel | image_operations.h: compute_homography, find_homography_robust (RANSAC and MSAC scorers), refine_homography, scale_homography, warp_perspective and create_stitched_image with and without a policy, default_bicubic_interpolator of RGB | floating point is an ordered field (rationals for stitching), rounding not modelled; the random generator is the list of its draws; out-of-range conversions to std::size_t are a parameter (undefined, or any value); a projected corner with denominator zero is UB |
| CliModel | main.h: sanitize_string_view, iequals, parse_arg<bool>, Workspace, args_filter, extract_policy_string, MetaScalarHandler, MetaTransformHandler, MetaImageIO (as load_arg and save_arg), CommandRegistry, PeepholeOptimizer, handlers copy and create_image_with_initial_value; main.cpp: run_interactive_mode | text is a list of bytes, isspace in the C locale; a std::any is the number of its type and a value; reading and writing files, from_chars and the computations of the commands are parameters; a handler that throws leaves the state it had; console output, plugins, help and the other handlers are not modelled; threads interleave whole calls of Workspace, a pointer names an object that ends when it is overwritten, moved from or erased |
| NestedModel | basic_functions.h: recursive_all_of, recursive_find, recursive_find_if, recursive_any_of, recursive_none_of, recursive_count, recursive_count_if, batch_recursive_count_if, recursive_max, recursive_min, recursive_size, recursive_reduce, recursive_for_each, recursive_foreach_all, recursive_reverse_foreach_all, recursive_fold_right_all, recursive_replace_copy_if, recursive_remove_copy(_if), recursive_copy_if, transform, recursive_transform (one and two containers, policy), recursive_transform_reduce, recursive_flatten, recursive_flatten_view, recursive_minmax, n_dim_*_generator, arithmetic_mean, population_variance, population_standard_deviation, square_sum, root_mean_square, sum_*_element | containers are sequences nested to a depth known by the type; overload resolution and the concepts are not modelled; std::transform_reduce and std::reduce may use any order and grouping; doubles are real numbers; three or more containers in recursive_transform, recursive_print and the boost version are not modelled |
| CubeModel | cube.h: the constructors of VolumetricImage, at, print, getData and the extents; cube_operations.h: voxelwiseOperation without a policy, plus, multiplies (also by a number), divides, modulus, negate | extents and offsets are integers modulo 2^64; std::vector of more than max_size elements throws; the text printed is a sequence of values, separators and line ends; the members that call getSizeX/Y/Z (subtract, the compound assignments, check_*_same) cannot be instantiated and are not modelled |
| SiftModel | image_operations.h: SIFT_impl: is_it_extremum, keypoint_refinement, keypoint_filtering, mapping_point, find_local_extrema, generate_octave, get_potential_keypoint, compute_each_pixel_orientation, get_orientation_histogram, get_keypoint_descriptor | double is the real numbers, a quotient by zero is a separate case; atan2 without signed zeros; difference_of_gaussian and the resampling function are parameters; a division of a loop among threads is a function from iterations to threads, and two threads appending to one vector is undefined; the multi-channel versions are not modelled |
| BundleModel | main.h: save_workspace, load_workspace; image_io.cpp: which files the readers open and close | a double is its bit pattern; a file is its bytes, the file system a map from path names to files, directories are not modelled (fopen for writing succeeds as a parameter says); the order of directory_iterator is any permutation; reading .csv and .ppm files is a parameter; a full disk is not modelled |
| GaussModel | image_operations.h: normalDistribution1D, gaussianFigure1D, gaussianFigure2D (separable and elliptic), the size of the filter for a standard deviation, imgaussfilt (one image, one or two standard deviations), difference_of_gaussian | doubles are real numbers; the overloads for several channels and with an angle are in AngleModel |
| LanczosModel | image_operations.h: lanczos_kernel, lanczos_resample (one plane of doubles, with and without a policy) | doubles are real numbers, so the final clamp to the finite range is the identity |
| ColourModel | image_operations.h: rgb2hsv, hsv2rgb (pixel and image), Grayscale2RGB, increase_intensity of RGB images | doubles and long doubles are real numbers; a NaN hue is UB; conversion of a floating value outside uint8_t is UB |
| TurnModel | image_operations.h:4719-5132: rotate_detail at every angle (the scatter of 4748-4780), rotate, rotate_detail_shear_transformation with any interpolator, bilinear_interpolate and default_bicubic_interpolator at real positions | floating point values are reals, hypot/atan2/sin/cos/fmod exact; the constant pi / 2 is a parameter (exact, or the x87 long double value in C103_no_double_quarter); a zero ratio (division by zero, then conversion of infinity or NaN) is undefined behaviour; colour pictures (plane by plane) and rotate_degree not modelled |
| FisheyeModel | image_operations.h:4435-4622: butterworth_fisheye, GaussianFisheyeInverseRootFinder, FisheyePixelMapper, gaussian_fisheye with OpenMP and with an execution policy | floating point values are reals; std::pow only for D0 > 0 and N > 0; the conversion of a negative rounded coordinate is undefined behaviour; 4624-4642 (integral D0, colour planes) in PlanesModel |
| BilateralModel | image_operations.h:5754-5773, 5904-6045, 6100-6159: get_center_pixel, bilateral_filter_detail, bilateral_filter_spatial_kernel, bilateral_filter, DefaultPatchDistance, DefaultWeightCalculation | floating point values are reals; a weighted mean of total weight 0 is undefined; differences of integer elements do not wrap (types narrower than int); the complex branch is not modelled; the planewise version 6047-6080 is in PlanesModel |
| FitModel | image_operations.h:2814-2838, 2840-2925, 3128-3316: gaussianFigure3D, gaussianFigure2D of GaussianParameters2D, estimate_gaussian_parameters_2d (solve_linear_system: LinModel) | doubles are reals; the order of the parallel reductions is left open; the standard deviations of the figures must not be 0 |
| FrameModel | image_operations.h:172-206, 361-374, 1941-1967, 2211-2228, 8393-8412 and the all_of/any_of/none_of family: is_size_same, generate, highlight_region, normalize, add_border_2d | the sign tests over integers; asserts are undefined behaviour; lack of memory not modelled; the callable of generate is a state and a step; std::reduce takes four extents at a time, as libstdc++ does |
| PanoModel | image_operations.h:7913-8028, 8283-8391 and 2353-2365 for RGB: find_stitch_homography, draw_matches, imstitch, stitch_sequential | detection, description and the solver of the homogeneous system are parameters; the random draws and colours are inputs; the generators seeded from the clock (8030-8052) are any answer of the search; progress output is left out |
| ContainerModel | `main.h`: `create_container`, `append_element`, `erase_element`, `get_element`, `transform_container` (without a policy, with `seq`, and with `par` for commands of `MetaTransformHandler` as an interleaving of atomic workspace steps); `main.cpp`: `remove`, `rename` | Types are numbers; the finite type lists are modelled as infinite families. Console output is not modelled. `unseq` and `par_unseq` of `transform_container` are outside the model (locking a mutex under them is undefined). Under `par` the command's own reads of other variables are not modelled. |
| PluginModel | `dynamic_loader.h`: `DynamicLibrary`; `main.cpp`: `load_plugins`, the order of destruction in `main` | `dlopen`/`dlclose` as a count per file. Libraries' own initialisers, values stored by plugins in the workspace and symbol resolution are not modelled. |
| CommandModel | `main.h`: `parse_arg` for integral types, the commands `grid`, `constructRGB`, `zeros`, `ones`, `count`, `replace`, `multiply` and `sum` (on containers), `read`, `MetaImageIO` (names only); `main.cpp`: `subimage`, `write` | Integral types as a number of bits and a sign, with the conversions of C++20. `multiply` takes the product of doubles to be exact. Messages are not modelled; a path with several slashes together is not normalised. Orders of execution under a policy are any permutation. |
| PrintModel | `image.h`: `print` and its helper; `base_types.h`: `operator<<` of RGB; `image_operations.h`: `print_with_latex`; `basic_functions.h`: `recursive_print`; `main.h`: `list_variables`; `main.cpp`: `print`, `info`, `vars` | Text as a list of character codes; pixels are integers or channels of integers (floating point text is not modelled). The line of a variable of an unlisted type is abstract. |
| ArithModel | `main.h`: the handlers of `add`, `subtract`, `abs`, `max`, `min`, `manhattan_distance`, `getRplane`, `getGplane`, `getBplane`, `im2double`, `im2uint8`; `image.h`: `operator+`, `operator-`; `base_types.h`: operators of RGB and RGB_DOUBLE; `basic_functions.h`: `generic_abs`; `image_operations.h`: `abs`, `max`, `min`, `manhattan_distance` as the handlers call them | The kinds of containers are one kind; integral types of the same width and sign are one type; HSV, MultiChannel and complex are left out; doubles are rational numbers with exact sums. |
| ElemModel | `basic_functions.h`: `apply_multichannel`, `pow`, `sqrt`, `cbrt`, `sin` ... `atanh`, `ceil`, `floor`, `trunc`, `nearbyint`, `rint`, `exp`, `exp2`, `expm1`, `log`, `log10`, `log1p`, `log2` at one element, several channels and with a policy; `image_operations.h`: those of pictures, `generate_complex_image`, `to_complex`, `to_double`, `difference` of two ranges, `euclidean_distance` of pictures of several channels | A finite double is a real number; anything else (NaN, infinity, values at poles and outside the domain) is one value `None`. erf, gamma and functions of complex numbers are left out; logb and the classification are in FloatModel. |
| RandModel | `image_operations.h:387-476`: `rand`, `randi`; `main.cpp:427-558`: the command rand | An engine is a state; a distribution applied to it gives a value and the next state. What the standard says of the values is a hypothesis. The seed from `std::random_device` is any state. |
| AngleModel | `image_operations.h:5647-5717`: `imgaussfilt` with an angle, for one plane and for three channels | Values are real numbers (`double` is not rounded); the rotation is `rotate_shear` with bicubic interpolation. |
| StageModel | The commands `dct2`, `idct2`, `gaussian_figure_2d`, `normalize` (`main.h:2299-2345, 2596-2640, 3190-3232, 3993-4110`), `lanczos_resample` and `rotate` (`main.cpp:259-315, 634-690`) on stored pictures; the integer and colour versions of `lanczos_resample` with an `int` radius (`image_operations.h:2395-2592`) | `double` is a real number (no rounding, NaN or infinity). Integer pixels for `rotate` are those a `double` holds exactly; `bool` pictures are not modelled. Containers of pictures for `normalize` are not modelled. |
| SessionModel | The command `multiply` on stored pictures (`main.h:3832-3990`), and the registry with the commands that the optimiser knows, with their schemas (`main.cpp:1461-1670`) | `double` is a real number. `bool` pictures and containers are not modelled. A command that ends the program has, as an entry of the registry, no defined effect; C163 is about sessions in which none does. |
| KeyModel | The commands `bicubic_resize` (`main.h:1843-1893`; `copyResizeBicubic` on doubles, integers and colours, `image_operations.h:2261-2365`), `sift_generate_octave` (`main.cpp:693-771`) and `get_sift_potential_keypoint` (`main.h:2700-2849`) on stored pictures | `double` and `float` are real numbers, positions are rationals: the rounding of positions and values to `float` is not modelled. `bool` and complex pictures (which the SIFT commands refuse) are not modelled. |
| CudaModel | `image_operations_cuda.cu` and `image_operations_cuda.h`: `warp_perspective_cuda` on pictures of bytes and of RGB pixels (the kernel, the grid of threads, the calls of the runtime, the release of the buffers), `create_stitched_image_cuda` | `FloatingType` is the rational numbers; `fabsf` passes a double through `float`, which is not modelled. The device is its allocated buffers, the answer of each call of the runtime and the order in which the threads run; threads are atomic (a thread writes one element and reads none of those written). Unified addressing, streams and errors left over from earlier launches are not modelled. |
| StackModel | The commands `dct3` (`main.h:2348-2404`), `hsv2rgb` (`main.h:3062-3187`), `to_complex` (`main.cpp:858-991`) and `estimate_gaussian_params_2d` (`main.h:2512-2598`) on stored values | `double` is the real numbers; integers have at most 53 bits, so that their conversion to `double` is exact. Images of `MultiChannel` other than those named in the file are not modelled. |
| GlueModel | `squared_euclidean_distance` with a policy and on integral elements (`image_operations.h:4000-4112`), `sort` (6175-6182), `append` of an array (`basic_functions.h:1859-1873`), the order of HSV colours (`base_types.h:132-138`), one command on the command line (`main.cpp:1668-1700`), the blockwise transform of the command `test` (`main.cpp:1079-1107`) | `std::ranges::sort` by its specification; a parallel reduction is any order and grouping, the partial sums in the type of the elements (as libstdc++ has it); HSV channels are real numbers (no NaN). The rest of the command `test` (reading `InputImages/1`, writing `test20241026`) is not modelled as a whole. |
| PlanesModel | `gaussian_fisheye` with an integral radius and of colour images (`image_operations.h:4621-4643`), `rotate_detail_shear_transformation` of colour and multi-channel images and by degrees (5075-5095), `bilateral_filter` of colour images (6045-6077) | real arithmetic instead of doubles (pi in long double is the real number); the progress callback; the planes of bytes of the colour bilateral filter are reals with a truncating conversion |
| HelpModel | `main.h`: `CommandRegistry` with descriptions, `list_commands`, `execute`, `help`; `main.cpp`: the table of registrations; `plugin_*.cpp`: their tables | Console text of the registry as characters. A handler is its text, its state and the text of its exception. `usages` (where each handler looks for input and output) is a table read off the handlers. Loading of libraries is in PluginModel. |
| FloatModel | `basic_functions.h:2744-3008`: `ilogb`, `logb`, `fpclassify`, `isfinite`, `isinf`, `isnan`, `isnormal`, `signbit` of a number, of several channels and with a policy; `image.h:549-551`: == and != of images; `base_types.h:132-140`: < and == of HSV colours; `image_operations.h:292-326`: `zeros`, `ones`, `nan` of doubles | A double is its bit pattern; the functions of `<cmath>`, == and < of doubles are modelled on the bits with the constants of x86-64 Linux. The meaning of a pattern (FloatProofs, `means`) follows IEEE 754 and does not use the model. `nan` of an integral type (undefined behaviour) is left out. |
| RoundModel | `image_operations.h:4288-4322`: `sum` and `mean` of an image of doubles, without and with a policy; `image.h:517-531`: `+=` and `-=` of images of doubles | Addition, subtraction and division are relations between bit patterns and round to nearest, ties to even, as IEEE 754 says; the sign of a zero result and the bits of a NaN result are left open. `std::reduce` may take any order and grouping. Only the default `std::plus` is modelled. All other models that use doubles, except HueModel, do not round. |
| HueModel | `image_operations.h:855-948`: `rgb2hsv` and `hsv2rgb` of a pixel, with rounding (ColourModel has them in exact arithmetic) | Relations between reals: every operation on doubles rounds to nearest, ties to even; every operation on long doubles gives a nearest number with 64 binary digits (the 80-bit format of x86-64), ties either way. `std::acos` is any double within 2^-50 of the arc cosine that is not negative, and 0 for 1; outside its domain it has no result (C185_total shows that this does not happen). `std::sqrt` rounds to nearest; `floor` is the overload for long double. |
| NormModel | `image_operations.h:2211-2228`: `normalize` of an image of doubles, with rounding (FrameModel has it in exact arithmetic) | The subtraction, division and comparison are those of RoundModel and FloatModel, with the divisions by zero and by infinities added; the sign of a zero and of a quotient by zero and the bits of a NaN are left open. No pixels: undefined. `min` and `max` are those of ReduceModel with `<` of doubles, so that NaN pixels are compared as in the library code. |
| DistModel | `image_operations.h:3887-3898` and `3947-3957`, `basic_functions.h:900-916`: `difference` and `manhattan_distance` of images of doubles, with rounding (ReduceModel and ArithModel have them for integers and in exact arithmetic) | The subtraction, addition and comparison are those of RoundModel and FloatModel; the sum goes from the left. The accumulator has type double, as by default. |
| SquareModel | `image_operations.h:4055-4112` and `4141-4160`: `squared_euclidean_distance` and `euclidean_distance` of two ranges of doubles, without a policy, with rounding | Differences, products and partial sums are rounded one after the other, from the left; no contraction to a fused multiply-add. `std::sqrt` rounds to nearest. Other element types, complex numbers and policies are not in this file. |
