{"id": "C01", "title": "Pixel coordinates address distinct in-range storage cells", "statement": "For an image of any number of dimensions, every coordinate tuple inside the image's sizes addresses exactly one stored element, that element exists, two different tuples never address the same element, and every stored element is addressed by some tuple (the first dimension varies fastest).", "quantifier": "all size vectors (any dimensionality, any extents whose product is representable) and all in-range coordinate tuples", "why_tests_cant": "The offset arithmetic must be injective and surjective for unboundedly many shapes; a test samples a few shapes.", "anchors": ["image.h: Image::at, at_without_boundary_check, calculateIndex, getStride"]}
{"id": "C02", "title": "Checked access is total: value, or the right exception, never stray memory", "statement": "Image::at with explicit coordinates returns the addressed element when the number of coordinates equals the number of dimensions and each is below its extent; it throws runtime_error when the number differs and out_of_range when some coordinate is too large; it never touches memory outside the image.", "quantifier": "all images and all coordinate lists, including wrong lengths and huge values", "why_tests_cant": "Absence of stray access must hold for every index and shape.", "anchors": ["image.h: Image::at, checkBoundary"]}
{"id": "C03", "title": "Any history of pixel writes behaves like a finite map", "statement": "After any sequence of in-range writes through at/set, reading a coordinate returns the value of the last write to that coordinate, or the original pixel if it was never written; extents never change.", "quantifier": "all images, all finite write histories, all coordinates", "why_tests_cant": "Histories are unbounded; a test covers a handful of orders.", "anchors": ["image.h: Image::at, Image::set(tuple), Image::set(index)"]}
{"id": "C04", "title": "Constructed images hold exactly as many pixels as their extents say", "statement": "Every Image constructor either throws or yields an image whose number of stored elements equals the product of its extents, and every member operation preserves that.", "quantifier": "all constructor arguments (extent lists, data lists, nested row lists) and all later operations", "why_tests_cant": "Requires every shape and every data length, including ragged nested rows and overflowing products.", "anchors": ["image.h: Image constructors (73-213), setAllValue, operator+=, cast"]}
{"id": "C05", "title": "Linear index and coordinate tuple convert back and forth", "statement": "Converting a linear index to coordinates and reading the image there gives the element stored at that linear index, for every linear index below the pixel count; converting coordinates to a linear index and back is the identity.", "quantifier": "all size vectors with positive extents, all linear indices", "why_tests_cant": "Mixed-radix div/mod round trip over unboundedly many radices.", "anchors": ["image_operations.h: linear_index_to_indices", "image.h: calculateIndex"]}
{"id": "C06", "title": "Coordinate iteration visits every pixel once in raster order", "statement": "Iterating pixels_with_coordinates on a two-dimensional image yields each pixel exactly once, in raster order, together with its own x and y; other dimensionalities throw.", "quantifier": "all two-dimensional images of any width and height", "why_tests_cant": "Termination and completeness depend on every width/height pair including zero extents.", "anchors": ["image.h: pixel_iterator, pixel_proxy, pixels_with_coordinates"]}
{"id": "C07", "title": "Boundary-reporting set never corrupts another pixel", "statement": "set(index, value) throws out_of_range outside the image and otherwise changes just that element; set(location tuple, value) returns true and changes just that pixel when inside, returns false and changes nothing when outside, and throws on a wrong number of coordinates.", "quantifier": "all images, indices, tuples and values", "why_tests_cant": "Frame property over all pixels and all inputs.", "anchors": ["image.h: Image::set, checkBoundaryTuple, tuple_location_to_index"]}
{"id": "C08", "title": "Image arithmetic is elementwise and refuses mismatched shapes", "statement": "a += b (and -=, *=, /=, +, -) either throws because the extents differ, leaving the operand as it was, or stores the elementwise result at every coordinate; with modular element arithmetic (a+b)-b equals a.", "quantifier": "all pairs of images of all shapes", "why_tests_cant": "Shape agreement and frame must hold for all shapes and contents.", "anchors": ["image.h: operator+=, operator-=, operator*=, operator/=, operator+, operator-", "image_operations.h: check_size_same"]}
{"id": "C09", "title": "Size products that overflow are rejected or handled", "statement": "Constructing an image from extents never yields an image whose bounds check admits a coordinate with no storage behind it.", "quantifier": "all lists of 64-bit extents", "why_tests_cant": "Only astronomically large extents exhibit the wrap-around; a test cannot allocate the right-hand side.", "anchors": ["image.h: Image constructors, count, at"]}
{"id": "C10", "title": "RGB and multichannel arithmetic is per channel modulo the channel width", "statement": "Adding or subtracting two RGB (or multichannel, or Point) values works channel by channel; for 8-bit channels subtraction undoes addition exactly, for all values.", "quantifier": "all pairs of pixel values", "why_tests_cant": "Needs all 2^48 operand pairs and every channel count.", "anchors": ["base_types.h: RGB operators, MultiChannel operators, Point operators"]}
{"id": "C11", "title": "Transpose mirrors the image about its diagonal and is an involution", "statement": "transpose swaps width and height, puts pixel (x,y) at (y,x), and applied twice returns the original image, for the sequential and the execution-policy overloads.", "quantifier": "all two-dimensional images; for the policy overload all execution orders of the per-pixel tasks", "why_tests_cant": "Schedules and shapes are unbounded.", "anchors": ["image_operations.h: transpose"]}
{"id": "C12", "title": "Flips mirror coordinates and are involutions", "statement": "flip_horizontal maps (x,y) to (W-1-x,y), flip_vertical to (x,H-1-y), flip_horizontal_vertical to (W-1-x,H-1-y), each restores the image when applied twice, and the combined flip equals the composition in either order.", "quantifier": "all two-dimensional images and all coordinates", "why_tests_cant": "Off-by-one at arbitrary extents.", "anchors": ["image_operations.h: flip_horizontal, flip_vertical, flip_horizontal_vertical"]}
{"id": "C13", "title": "Quarter-turn rotation", "statement": "The quarter-turn step sends pixel (x,y) to (H-1-y,x), swaps the extents and four of them restore the image; rotate by an exact multiple of a quarter turn returns the image turned by that many quarter turns.", "quantifier": "all two-dimensional images, all multiples of a quarter turn", "why_tests_cant": "All images and all angles; the defect hides in exact multiples.", "anchors": ["image_operations.h: rotate_detail, rotate, rotate_detail_shear_transformation"]}
{"id": "C14", "title": "subimage crops around a centre and pads outside with the default element", "statement": "subimage returns an image of the requested extents whose pixel at offset p is the input pixel at centre - floor(extent/2) + p when that lies inside the input and the default element otherwise; it never reads outside the input, for every centre and extent.", "quantifier": "all images of any dimensionality, all centres and extents, including those reaching outside on either side", "why_tests_cant": "Unsigned wrap-around left of the origin must be handled for every input.", "anchors": ["image_operations.h: subimage"]}
{"id": "C15", "title": "subimage2 returns the inclusive rectangle or throws", "statement": "subimage2(image, x1, x2, y1, y2) returns the (x2-x1+1) by (y2-y1+1) rectangle with corner (x1,y1) when the rectangle lies inside the image and throws otherwise.", "quantifier": "all images and all four rectangle bounds", "why_tests_cant": "Boundary values at x2 = width must be rejected for every width.", "anchors": ["image_operations.h: subimage2"]}
{"id": "C16", "title": "split then concat restores the image", "statement": "Splitting a two-dimensional image into cells and concatenating the cells back gives the original image when the extents are divisible by the cell counts; each cell holds the pixels of its block.", "quantifier": "all images, all cell counts dividing the extents", "why_tests_cant": "Unbounded numbers of cells.", "anchors": ["image_operations.h: split, concat, concat_horizontal, concat_vertical"]}
{"id": "C17", "title": "Concatenation places images side by side", "statement": "concat_horizontal/concat_vertical of a list of images with equal cross extents yields the image whose pixels are those of the inputs laid out in order, and throws when extents mismatch.", "quantifier": "all non-empty lists of images", "why_tests_cant": "List length and extents unbounded.", "anchors": ["image_operations.h: concat_horizontal, concat_vertical"]}
{"id": "C18", "title": "Overlapped splitting returns blocks at their own position", "statement": "split with overlap returns for every cell the block of the image at that cell's position extended on each side by the overlap width.", "quantifier": "all images, cell counts, overlap widths", "why_tests_cant": "Systematic displacement must be excluded for every block size parity and overlap.", "anchors": ["image_operations.h: split_overlap"]}
{"id": "C19", "title": "paste2D overlays the target on the background", "statement": "paste2D returns an image large enough for both, holding the target's pixels inside the target rectangle, the background's pixels elsewhere inside the background, and the default value in the rest.", "quantifier": "all two-dimensional images and all paste locations", "why_tests_cant": "Three overlapping regions at arbitrary offsets.", "anchors": ["image_operations.h: paste2D"]}
{"id": "C20", "title": "Constant padding", "statement": "Constant padding by (w,h) yields extents W+2w, H+2h with the image in the centre and the constant around it.", "quantifier": "all two-dimensional images, all paddings, all constants", "why_tests_cant": "Unbounded extents.", "anchors": ["image_operations.h: generate_constant_padding_image"]}
{"id": "C21", "title": "Replicate padding clamps to the nearest edge pixel", "statement": "Replicate padding by (w,h) gives at (x,y) the original pixel at (clamp(x-w),clamp(y-h)).", "quantifier": "all non-empty two-dimensional images, all paddings", "why_tests_cant": "Nine regions assembled from slices must agree for all extents.", "anchors": ["image_operations.h: generate_replicate_padding_image"]}
{"id": "C22", "title": "Mirror padding reflects about the edge pixels", "statement": "Mirror padding by (w,h), with w<W and h<H, gives at (x,y) the original pixel at (reflect(x-w),reflect(y-h)) where reflection does not repeat the edge pixel.", "quantifier": "all two-dimensional images, all paddings smaller than the extents", "why_tests_cant": "Nine regions assembled from flips and slices must agree for all extents.", "anchors": ["image_operations.h: generate_mirror_padding_image"]}
{"id": "C23", "title": "draw_line reaches its end point and touches only the line", "statement": "draw_line terminates for all integer end points, sets both end points when inside the image, each step moves by at most one pixel in each axis, the drawn pixels stay in the bounding box of the end points and within half a pixel of the ideal line, and no other pixel changes.", "quantifier": "all images, all pairs of end points (inside or outside), all values", "why_tests_cant": "Termination and accuracy of the error accumulator for all slopes.", "anchors": ["image_operations.h: draw_line"]}
{"id": "C24", "title": "draw_circle draws the discrete ring only", "statement": "draw_circle terminates, changes only pixels on the discrete ring of the given radius around the centre (for each column offset the least row offset whose squared distance is at least radius squared), clips at the border, and radius zero returns the input.", "quantifier": "all images, centres and radii", "why_tests_cant": "All radii; monotone tracking must never skip a row.", "anchors": ["image_operations.h: draw_circle"]}
{"id": "C25", "title": "draw_point paints the disc around the point", "statement": "draw_point paints every pixel of the image whose squared distance to the point is below the squared radius and changes no other pixel.", "quantifier": "all images, points and radii, including points near the border", "why_tests_cant": "Unsigned wrap-around near the border.", "anchors": ["image_operations.h: draw_point"]}
{"id": "C26", "title": "conv2 computes discrete convolution", "statement": "conv2 of an image with a kernel has extents Wx+Wk-1, Hx+Hk-1 and each pixel equals the convolution sum; the same-size variant is its central crop.", "quantifier": "all images and kernels", "why_tests_cant": "All extents; index ranges at the border.", "anchors": ["image_operations.h: conv2"]}
{"id": "C27", "title": "N-dimensional convolution agrees with the convolution sum", "statement": "convolution computes the full convolution sum for images of any dimensionality; with is_size_same it returns the central crop of that result.", "quantifier": "all dimensionalities, images and kernels", "why_tests_cant": "Dimensionality is unbounded.", "anchors": ["image_operations.h: convolution, convolution_detail"]}
{"id": "C28", "title": "Windowed filtering applies the function to the original neighbourhood", "statement": "windowed_filter's output pixel is the filter function of the (padded) original neighbourhood, independent of the order in which windows are processed.", "quantifier": "all images, window sizes, filter functions, execution orders", "why_tests_cant": "Data races appear only under some schedules.", "anchors": ["image_operations.h: windowed_filter"]}
{"id": "C29", "title": "Parallel per-pixel loops are schedule independent", "statement": "Functions run with an execution policy in which every task writes only its own output pixel give the same result under every order of the tasks as the sequential version.", "quantifier": "all inputs and all task orders", "why_tests_cant": "Schedules cannot be enumerated.", "anchors": ["image_operations.h: transpose, apply_each_pixel, pixelwise_transform, warp_perspective (policy overloads)"]}
{"id": "C30", "title": "Plane extraction and colour assembly are inverse", "statement": "constructRGB of the three planes of an RGB image is that image; getPlane k of constructRGB(r,g,b) is the k-th argument; mismatched sizes throw; the same for multichannel assembly.", "quantifier": "all images and all channel counts", "why_tests_cant": "All pixels and shapes.", "anchors": ["image_operations.h: getPlane, getRplane, getGplane, getBplane, constructRGB, constructMultiChannel"]}
{"id": "C31", "title": "Saturating RGB operations stay in range and saturate at the bounds", "statement": "Image subtraction on RGB clamps each channel difference at zero; results stay in 0..255 and equal the clamped mathematical value.", "quantifier": "all pixel pairs and all shapes", "why_tests_cant": "All operand pairs.", "anchors": ["image_operations.h: subtract"]}
{"id": "C32", "title": "Histogram counts equal the number of occurrences", "statement": "The histogram of an image maps every value to the number of pixels with that value; the total equals the number of pixels; the dense (8/16-bit) and the sparse representation agree.", "quantifier": "all images and all values", "why_tests_cant": "All contents and shapes.", "anchors": ["histogram.h: Histogram(Image), getCount, getCountSum, operator[]"]}
{"id": "C33", "title": "Histogram updates behave like multiset union", "statement": "Any sequence of addCount operations, starting from any histogram, raises the count of each value by the number of its occurrences in the sequence and leaves other counts alone; the order does not matter. Assigning through operator[] changes the count of that value only.", "quantifier": "all operation histories", "why_tests_cant": "Histories unbounded.", "anchors": ["histogram.h: addCount, operator[], getCount"]}
{"id": "C34", "title": "Normalised histograms are probability distributions", "statement": "normalize/to_probabilities of a non-empty histogram gives non-negative entries summing to one and proportional to the counts.", "quantifier": "all histograms with positive total", "why_tests_cant": "Division by the total for all contents.", "anchors": ["histogram.h: normalize, to_probabilities_vector", "image_operations.h: normalize_histogram"]}
{"id": "C35", "title": "Binned histograms place each value in its own bin", "statement": "histogram_with_bins counts each value in the bin of the uniform partition of the value range it falls in; the bin counts add up to the number of pixels and no access leaves the bin array.", "quantifier": "all images and bin counts, including element types with negative lowest value", "why_tests_cant": "Value range and bin count unbounded.", "anchors": ["image_operations.h: histogram_with_bins"]}
{"id": "C36", "title": "Otsu threshold maximises the between-class variance", "statement": "otsu_threshold returns a threshold whose between-class variance is maximal among all thresholds, the first such one.", "quantifier": "all histograms", "why_tests_cant": "Optimality over all thresholds and histograms.", "anchors": ["image_operations.h: otsu_threshold"]}
{"id": "C37", "title": "BMP write then read restores the image", "statement": "Reading back the bytes written by bmp_write gives an image of the same extents and pixels for every width and height (row padding included).", "quantifier": "all RGB images with positive extents within the header's 32-bit range", "why_tests_cant": "All widths modulo 4, all contents.", "anchors": ["image_io.cpp: bmp_write, bmp_read, bmp_read_detail, raw_image_to_array, array_to_raw_image, bmp_filling_byte_calc"]}
{"id": "C38", "title": "BMP rows are padded to a multiple of four bytes", "statement": "Every row written by bmp_write occupies a multiple of four bytes and at most three padding bytes are added.", "quantifier": "all widths", "why_tests_cant": "All widths.", "anchors": ["image_io.cpp: bmp_filling_byte_calc"]}
{"id": "C39", "title": "BMP reader never reads outside the file", "statement": "bmp_read on arbitrary bytes either reports failure or returns an image built from bytes inside the file, never a stray access; top-down files (negative height) are flipped; palette files resolve every index.", "quantifier": "all byte strings as file contents", "why_tests_cant": "Malformed inputs are unbounded.", "anchors": ["image_io.cpp: bmp_read_x_size, bmp_read_y_size, bmp_read_detail, bmp_file_read"]}
{"id": "C40", "title": "PNM write then read restores the image", "statement": "Parsing the text written by the PNM writer (P2, P3) restores extents and samples; comments are skipped; truncated files throw.", "quantifier": "all images with 8-bit samples, all interleavings of whitespace and comments", "why_tests_cant": "All contents and comment placements.", "anchors": ["image_io.h: pnm::read_pnm_token, ProcessPPMData, read, write"]}
{"id": "C41", "title": "CSV write then read restores the image", "statement": "Reading the CSV text written for a two-dimensional image restores its extents and values, for every element type.", "quantifier": "all two-dimensional images", "why_tests_cant": "All values, including those whose character code is a separator.", "anchors": ["image_io.h: write_to_csv, read_from_csv, ParseCSVRow"]}
{"id": "C42", "title": "Matrix algebra laws", "statement": "Matrix transpose is an involution, multiply computes row-by-column sums and throws on inner-dimension mismatch, (AB)^T = B^T A^T, multiplication is associative, and the identity is neutral.", "quantifier": "all matrices of all sizes over a commutative ring", "why_tests_cant": "All sizes.", "anchors": ["linear_algebra.h: Matrix, transpose, multiply"]}
{"id": "C43", "title": "3x3 inversion is exact or reported", "statement": "invert returns B with A B = B A = I whenever it returns a non-empty matrix, returns the empty matrix exactly when the determinant is zero, and throws when the size is not 3x3; determinant3x3 is the determinant (multiplicative).", "quantifier": "all 3x3 matrices (exact arithmetic)", "why_tests_cant": "Infinite domain.", "anchors": ["linear_algebra.h: invert", "image_operations.h: determinant3x3"]}
{"id": "C44", "title": "Symmetry test is exact", "statement": "is_symmetry returns true exactly when the matrix is square and equals its transpose.", "quantifier": "all matrices", "why_tests_cant": "All sizes and entries.", "anchors": ["linear_algebra.h: is_symmetry", "image_operations.h: is_symmetry"]}
{"id": "C45", "title": "Linear solver returns a solution", "statement": "Whenever solve_linear_system returns a vector it satisfies every equation of the system; it rejects systems whose pivots vanish.", "quantifier": "all square systems of all sizes (exact arithmetic)", "why_tests_cant": "All sizes and entries; pivoting order.", "anchors": ["image_operations.h: solve_linear_system"]}
{"id": "C46", "title": "DCT and inverse DCT are mutually inverse", "statement": "idct2(dct2(image)) equals the image (and dct2(idct2(image)) too) in exact arithmetic, for all image sizes.", "quantifier": "all two-dimensional images", "why_tests_cant": "All sizes and real contents.", "anchors": ["image_operations.h: dct2, idct2, dct3_one_plane, idct3_one_plane"]}
{"id": "C47", "title": "DFT and inverse DFT are mutually inverse", "statement": "idft2(dft2(image)) equals the image with imaginary part zero in exact arithmetic, for all sizes, and the sum of squares is preserved.", "quantifier": "all two-dimensional images of the element types dft2 accepts", "why_tests_cant": "All sizes and contents.", "anchors": ["image_operations.h: dft2, idft2"]}
{"id": "C48", "title": "Interpolation reproduces grid samples and stays inside the image", "statement": "Bilinear and bicubic interpolation return the sample exactly at integer positions, reproduce constant images everywhere inside, bilinear results lie between the least and greatest of the four neighbours, and no sample outside the image is read.", "quantifier": "all images, all real positions inside", "why_tests_cant": "Continuum of positions.", "anchors": ["image_operations.h: bilinear_interpolate, cubic_kernel, default_bicubic_interpolator, cubic_interpolate, bicubicPolate, copyResizeBicubic"]}
{"id": "C49", "title": "Extremum, count, replace and uniqueness agree with their specifications", "statement": "min/max return an attained bound, count returns the number of equal pixels, replace changes exactly the pixels equal to the old value, unique_value holds exactly when the value occurs once.", "quantifier": "all non-empty images, all values", "why_tests_cant": "All contents.", "anchors": ["image_operations.h: min, max, minmax, count, replace, unique_value"]}
{"id": "C50", "title": "Sum and mean equal the mathematical sum and mean", "statement": "sum returns the sum of all pixels; mean the sum divided by the number of pixels.", "quantifier": "all images of every element type", "why_tests_cant": "Overflow of narrow accumulators appears only on large images.", "anchors": ["image_operations.h: sum, mean"]}
{"id": "C51", "title": "Manhattan distance is a metric", "statement": "manhattan_distance is symmetric, zero exactly for equal images, satisfies the triangle inequality, and throws on different extents.", "quantifier": "all triples of images of one shape", "why_tests_cant": "Triples of arbitrary contents.", "anchors": ["image_operations.h: difference, manhattan_distance"]}
{"id": "C52", "title": "Raw feature matches are best matches passing the ratio test", "statement": "find_raw_matches reports (i,j) exactly when j is the first of the nearest descriptors to i and its distance passes the ratio test against every other one; each i is reported at most once and the reported set does not depend on scheduling. Distances that are not below the largest finite value never win; descriptors of different lengths make the search throw.", "quantifier": "all descriptor lists, all ratio thresholds, all schedules", "why_tests_cant": "Order of concurrent insertions; ties.", "anchors": ["image_operations.h: find_raw_matches"]}
{"id": "C53", "title": "Robust matches are one-to-one and mutual", "statement": "find_robust_matches returns exactly the pairs that are raw matches in both directions; no left or right feature occurs twice.", "quantifier": "all descriptor lists", "why_tests_cant": "All contents.", "anchors": ["image_operations.h: find_robust_matches"]}
{"id": "C54", "title": "Homography DLT rows encode the projective map", "statement": "The linear system assembled for a set of point correspondences vanishes on nine coefficients exactly when, as a homography, they map each source point to its destination (non-zero denominators); a matrix reported as found has lower right entry one and solves it as well as the solver does; scale_homography turns a homography between the full-size pictures into the one between the small ones.", "quantifier": "all point pairs and homographies (exact arithmetic)", "why_tests_cant": "Continuum of points.", "anchors": ["image_operations.h: compute_homography, scale_homography"]}
{"id": "C55", "title": "RANSAC keeps the best candidate", "statement": "find_homography_robust returns the first sampled candidate of strictly least cost, and a zero matrix when there are fewer than four matches.", "quantifier": "all match lists, all random sample sequences", "why_tests_cant": "Random sequences unbounded.", "anchors": ["image_operations.h: find_homography_robust_impl"]}
{"id": "C56", "title": "Sequential and parallel stitching agree", "statement": "create_stitched_image gives the same picture with and without an execution policy.", "quantifier": "all image pairs and homographies", "why_tests_cant": "All translations.", "anchors": ["image_operations.h: create_stitched_image, warp_perspective"]}
{"id": "C57", "title": "Local extremum test", "statement": "The keypoint test accepts the centre exactly when it is strictly greater than, or strictly less than, all 26 neighbours and exceeds the contrast threshold.", "quantifier": "all 3x3x3 neighbourhoods and thresholds", "why_tests_cant": "Continuum of values; ties.", "anchors": ["image_operations.h: SIFT_impl::is_it_extremum"]}
{"id": "C58", "title": "Keypoint search never leaves its octaves", "statement": "get_potential_keypoint never accesses an octave or scale that was not generated.", "quantifier": "all image sizes, octave counts and scale counts", "why_tests_cant": "Small images and unusual counts.", "anchors": ["image_operations.h: SIFT_impl::get_potential_keypoint, generate_octave"]}
{"id": "C59", "title": "Workspace is a typed finite map", "statement": "After any history of store/remove/rename/clear, retrieving a name with the stored type returns the last value stored under that (sanitised) name, any other type or an absent name returns nothing, and other names are unaffected; renaming a variable to itself keeps it.", "quantifier": "all operation histories, names and values", "why_tests_cant": "Histories unbounded.", "anchors": ["main.h: Workspace::store, retrieve, remove, rename, clear"]}
{"id": "C60", "title": "Name sanitising is idempotent and only strips the ends", "statement": "Sanitising a name strips blanks and quotes from both ends only; sanitising twice equals sanitising once.", "quantifier": "all strings", "why_tests_cant": "All strings.", "anchors": ["main.h: sanitize_string_view"]}
{"id": "C61", "title": "Policy arguments are filtered without disturbing the others", "statement": "Filtering the execution-policy words keeps all other arguments in order, and the extracted policy is the first (last, for scalar handlers) policy word.", "quantifier": "all argument lists", "why_tests_cant": "All positions of policy words.", "anchors": ["main.h: args_filter, extract_policy_string, MetaScalarHandler"]}
{"id": "C62", "title": "Pipeline optimisation preserves the result of the command line", "statement": "Executing the optimised pipeline leaves the workspace with the same user-visible variables as executing the original pipeline; optimisation terminates.", "quantifier": "all pipelines, workspaces and interpretations of the commands (idct2 inverse to dct2, multiply by 1 neutral)", "why_tests_cant": "All pipelines.", "anchors": ["main.h: PeepholeOptimizer::optimize", "main.cpp: run_interactive_mode"]}
{"id": "C63", "title": "Pipelines route each stage's output to the next stage's input", "statement": "For a pipeline of transformer stages the k-th stage reads what the (k-1)-th stage wrote, the last one writes the named variable, and a failing stage does not feed later stages with other data.", "quantifier": "all pipelines and all workspaces, including those with left-over variables", "why_tests_cant": "Histories of earlier pipelines.", "anchors": ["main.cpp: run_interactive_mode", "main.h: CommandRegistry::execute"]}
{"id": "C64", "title": "Command registry keeps the first registration", "statement": "After any sequence of registrations a name resolves to its first registered handler and schema; executing an unknown command changes nothing.", "quantifier": "all registration histories", "why_tests_cant": "Histories unbounded.", "anchors": ["main.h: CommandRegistry::register_command, execute, get_schema"]}
{"id": "C65", "title": "Saving and loading a workspace restores it", "statement": "Loading a directory written by save_workspace restores every variable of a saveable image type under its name with equal contents.", "quantifier": "all workspaces", "why_tests_cant": "All names and contents.", "anchors": ["main.h: handlers::save_workspace, handlers::load_workspace"]}
{"id": "C66", "title": "Concurrent workspace access is safe", "statement": "A value obtained by one thread from the workspace stays valid while other threads store or remove variables.", "quantifier": "all interleavings of retrieve, store and remove", "why_tests_cant": "Interleavings.", "anchors": ["main.h: Workspace::retrieve, remove, store"]}
{"id": "C67", "title": "Nested container algorithms equal their flattened counterparts", "statement": "recursive_count, recursive_count_if, recursive_reduce, recursive_size, recursive_all_of/any_of/none_of/find, recursive_max/min, recursive_fold_right_all on nested containers equal the plain algorithm on the flattened sequence; recursive_transform and recursive_replace_copy_if keep the shape and map the leaves. append of a std::array gives its elements followed by the new one.", "quantifier": "all nesting depths, shapes, predicates and functions", "why_tests_cant": "Depth and shape unbounded.", "anchors": ["basic_functions.h: recursive_* templates", "basic_functions.h: append"]}
{"id": "C68", "title": "Nested transform-reduce equals flat transform-reduce", "statement": "recursive_transform_reduce on nested containers equals the flat transform-reduce of the leaves, for every associative operation and initial value.", "quantifier": "all nesting depths and all operations", "why_tests_cant": "Depth and operation unbounded.", "anchors": ["basic_functions.h: recursive_transform_reduce"]}
{"id": "C69", "title": "Volumetric images address distinct cells and check their extents", "statement": "VolumetricImage addresses (x,y,z) injectively and in range, throws outside, its constructors produce consistent extents and storage, and its print visits each voxel once.", "quantifier": "all extents and coordinates", "why_tests_cant": "All extents.", "anchors": ["cube.h: VolumetricImage"]}
{"id": "C70", "title": "Adding images adds pixelwise and refuses mismatched sizes", "statement": "add of one or more images of equal extents gives, at every pixel, the sum of the operands' pixels; images of different extents are refused.", "quantifier": "all operand counts, extents and contents", "why_tests_cant": "Operand count and extents unbounded; a read past the end is silent.", "anchors": ["image_operations.h: add, pixelwise_transform", "basic_functions.h: transform, recursive_transform"]}
{"id": "C71", "title": "Scalar and pixelwise products, quotients, thresholds and differences act on each pixel", "statement": "multiplies by a scalar, pixelwise_multiplies, divides by a scalar, apply_threshold_openmp and difference compute exactly the per-pixel operation, keep the extents, and the pixelwise product of images of different extents throws.", "quantifier": "all images, scalars, element operations and task orders", "why_tests_cant": "All extents, contents and schedules.", "anchors": ["image_operations.h: multiplies, pixelwise_multiplies, divides, apply_threshold_openmp, difference"]}
{"id": "C72", "title": "im2double followed by im2uint8 is the identity", "statement": "Converting an 8-bit image to double and back restores every pixel, for colour and grey images.", "quantifier": "all 8-bit images and task orders", "why_tests_cant": "All contents and extents.", "anchors": ["image_operations.h: im2double, im2uint8, convert_image", "image.h: cast"]}
{"id": "C73", "title": "BMP header describes the written file", "statement": "The header written by bmp_write carries the signature, the pixel data offset 54, the info header size 40, the image's width and height, one plane, 24 bits per pixel and no compression, and its size field equals the length of the file.", "quantifier": "all RGB images within the header's 32-bit range", "why_tests_cant": "All widths modulo 4 and all heights; other decoders rely on every field.", "anchors": ["image_io.cpp: bmp_write"]}
{"id": "C74", "title": "Double and HSV image files restore the image", "statement": "Reading back a .dbmp or .hsv file written by the library gives an image of the same extents and exactly the same values, whatever the contents of the uninitialised padding.", "quantifier": "all two-dimensional images whose padded cell count is below 2^31", "why_tests_cant": "All widths modulo 8, all contents, all padding garbage.", "anchors": ["image_io.cpp: double_image::write, double_image::read, hsv_write, hsv_read, array_to_raw_image"]}
{"id": "C75", "title": "The PNM reader never leaves its buffers", "statement": "On any text, the PNM reader returns an image or throws; it never accesses memory outside its buffers.", "quantifier": "all texts, all orders of the parallel loop", "why_tests_cant": "All byte sequences; the failing headers announce extents whose product wraps in 64 bits.", "anchors": ["image_io.h: pnm::read, ProcessPPMData, read_pnm_token, shift_color_value"]}
{"id": "C76", "title": "Eigen decomposition of symmetric matrices", "statement": "For every symmetric matrix the Jacobi solver returns one eigenvalue per row and an orthonormal matrix whose columns, paired with the eigenvalues, are eigenvectors up to the tolerance, or else the permitted number of rotations was used up and the remaining error is the initial one times (1 - 2/(n(n-1))) per rotation; a matrix that is not square throws.", "quantifier": "all symmetric matrices of all sizes, all tolerances and iteration limits (real arithmetic)", "why_tests_cant": "All sizes, all real entries, any number of rotations; convergence is a statement about every input.", "anchors": ["linear_algebra.h: jacobi_eigen_solver"]}
{"id": "C77", "title": "Homogeneous systems: minimising unit vector", "statement": "svd_solve_ah_zero returns a vector of length one, and no other unit vector makes the image under A shorter by more than a slack of n*1e-9 in the squared length (or, if 100 rotations did not suffice, the remaining off-diagonal mass).", "quantifier": "all real matrices with at least one column", "why_tests_cant": "The minimum ranges over all unit vectors.", "anchors": ["linear_algebra.h: svd_solve_ah_zero"]}
{"id": "C78", "title": "Bicubic resizing interpolates for every element type", "statement": "copyResizeBicubic returns, for every arithmetic element type, the source value where an output pixel lands on a source pixel and a value computed from the neighbouring samples in between; resizing to the same size is the identity.", "quantifier": "all non-empty images, all target sizes, all arithmetic element types", "why_tests_cant": "Tests use one element type and small values; the loss of the fraction for integral types and of precision above 2^24 depends on the type and the value.", "anchors": ["image_operations.h: copyResizeBicubic, bicubicPolate, cubic_interpolate"]}
{"id": "C79", "title": "Euclidean distance is a metric", "statement": "euclidean_distance of two images of one shape is the root of the sum of squared pixel differences; it is symmetric, zero exactly for equal images, satisfies the triangle inequality, and throws on different extents, whatever order the reduction uses.", "quantifier": "all triples of images of one shape, all element types, all reduction orders", "why_tests_cant": "Triples of arbitrary contents; the triangle inequality needs Cauchy-Schwarz, and wrap-around of unsigned subtraction depends on the element type.", "anchors": ["image_operations.h: euclidean_distance, squared_euclidean_distance", "basic_functions.h: two_input_map_reduce"]}
{"id": "C80", "title": "Homography refinement uses exactly the inliers", "statement": "refine_homography recomputes the matrix from exactly the matches that the initial matrix reprojects within the threshold (matches with a vanishing denominator are left out), in their order; with an empty initial matrix, fewer than four inliers or a failing estimation the initial matrix is returned unchanged.", "quantifier": "all keypoint lists, matches, matrices and thresholds (exact arithmetic)", "why_tests_cant": "A test sees one set of matches; which matches take part is not visible in the matrix.", "anchors": ["image_operations.h: refine_homography"]}
{"id": "C81", "title": "Perspective warping samples the source at the mapped position", "statement": "warp_perspective gives each output pixel the value of the source read at the image of the pixel's position under the given matrix, and the default value where the denominator is below the threshold; the result does not depend on the execution policy.", "quantifier": "all images, sizes, invertible matrices, interpolators and schedules", "why_tests_cant": "Continuum of matrices; a symmetric matrix hides the direction of the map.", "anchors": ["image_operations.h: warp_perspective, linear_algebra.h: invert"]}
{"id": "C82", "title": "Boolean arguments", "statement": "A boolean argument, stripped of blanks and quotes at its ends, is true when it is 1 or the word true in any mixture of small and capital letters, false when it is 0 or false likewise, and refused otherwise.", "quantifier": "all texts", "why_tests_cant": "All texts.", "anchors": ["main.h: parse_arg<bool>, iequals"]}
{"id": "C83", "title": "Mean, variance and root mean square of containers", "statement": "arithmetic_mean is the sum divided by the number of elements, population_variance the mean squared deviation (never negative, zero exactly for constant data), population_standard_deviation its root, root_mean_square the root of the mean square; mean, variance and deviation of an empty container throw.", "quantifier": "all containers and values; all orders of summation", "why_tests_cant": "Continuum of values; the order of a parallel reduction is unspecified.", "anchors": ["basic_functions.h: arithmetic_mean, population_variance, population_standard_deviation, square_sum, root_mean_square"]}
{"id": "C84", "title": "Sums of components do not depend on the execution policy", "statement": "sum_first_element, sum_second_element and sum_n_th_element combine exactly the chosen component of every entry; for an associative and commutative operation the versions with an execution policy give the result of the sequential loop.", "quantifier": "all lists of pairs or tuples, all operations, all orders of reduction", "why_tests_cant": "The order of a parallel reduction is unspecified.", "anchors": ["basic_functions.h: sum_first_element, sum_second_element, sum_n_th_element"]}
{"id": "C85", "title": "Voxelwise operations combine corresponding voxels", "statement": "negate, plus, multiplies, divides, modulus and multiplication by a number of volumetric images give a volume of the same extents whose every voxel is the operation applied to the voxels at the same coordinates.", "quantifier": "all volumes, element types, operations and numbers of operands", "why_tests_cant": "All extents; operands of different shapes are silently accepted.", "anchors": ["cube_operations.h: voxelwiseOperation, plus, multiplies, divides, modulus, negate"]}
{"id": "C86", "title": "Sub-pixel refinement of a keypoint", "statement": "Refining a keypoint moves it to the stationary point of the quadratic approximation of its 3 x 3 patch.", "quantifier": "all patches and pixel positions", "why_tests_cant": "A continuum of patches; a wrong formula agrees with the right one on symmetric examples.", "anchors": ["image_operations.h: SIFT_impl::keypoint_refinement"]}
{"id": "C87", "title": "Filtering of keypoints", "statement": "A keypoint passes the filter exactly when its value exceeds the contrast threshold in absolute value and its principal curvatures have the same sign and a ratio below the edge threshold.", "quantifier": "all patches and thresholds", "why_tests_cant": "A continuum of patches; saddles and dark keypoints are rare in samples.", "anchors": ["image_operations.h: SIFT_impl::keypoint_filtering"]}
{"id": "C88", "title": "Local extrema of three scales", "statement": "Searching three images of one size finds exactly the interior pixels of the second that are strict extrema among their 26 neighbours and exceed the contrast threshold, in raster order, whatever the number of threads.", "quantifier": "all images, thresholds and divisions of the loop among threads", "why_tests_cant": "All images; data races depend on the schedule.", "anchors": ["image_operations.h: SIFT_impl::find_local_extrema"]}
{"id": "C89", "title": "Mapping keypoints to the input image", "statement": "A keypoint found in an octave is mapped to a pixel inside the input image, proportionally to the extents.", "quantifier": "all refined locations and extents", "why_tests_cant": "Locations are real numbers and can be far outside the octave or not finite.", "anchors": ["image_operations.h: SIFT_impl::mapping_point"]}
{"id": "C90", "title": "Gradient magnitude and orientation", "statement": "The magnitude and the orientation computed for a patch are the polar coordinates of its central differences, the angle in degrees shifted by 180 into (0, 360].", "quantifier": "all 3 x 3 patches", "why_tests_cant": "A continuum of gradients and all quadrants.", "anchors": ["image_operations.h: SIFT_impl::compute_each_pixel_orientation"]}
{"id": "C91", "title": "Orientation histogram", "statement": "The orientation histogram of a point has 37 bins; bin b holds the sum of the gradient magnitudes of the pixels in the window whose orientation is in [10 b, 10 b + 10); no pixel of the window inside the image is left out.", "quantifier": "all images, points and window sizes", "why_tests_cant": "All points near the borders; a bin can be off by one only for rare angles.", "anchors": ["image_operations.h: SIFT_impl::get_orientation_histogram"]}
{"id": "C92", "title": "Keypoint descriptor", "statement": "The descriptor of a location has 128 entries; entry (4 sy + sx) 8 + b is the sum of the gradient magnitudes with orientation in the b-th of eight sectors over the 4 x 4 pixels of subregion (sx, sy) of the block around the location.", "quantifier": "all images, locations and block sizes", "why_tests_cant": "All locations near the borders and all block sizes.", "anchors": ["image_operations.h: SIFT_impl::get_keypoint_descriptor"]}
{"id": "C93", "title": "Reading an image file releases it", "statement": "Reading an image file leaves no file open, so any number of BMP, .dbmp and .hsv files can be read one after another, each with the same result as the first.", "quantifier": "all files, numbers of reads and limits of open files", "why_tests_cant": "A test reads few files; the loss shows only when the limit of the process is reached.", "anchors": ["image_io.cpp: bmp_file_read, bmp_read_x_size, bmp_read_y_size, double_image::read, hsv_read", "main.h: handlers::load_workspace"]}
{"id": "C94", "title": "Gaussian smoothing is a weighted mean", "statement": "Gaussian smoothing keeps the extents of a picture; every result pixel is the mean of the pixels around it with Gaussian weights that add up to one, so the range of the values is kept and flat pictures are unchanged, for constant, mirrored and replicated borders and however the work is spread over threads. A picture that is not two-dimensional, or is not larger than the filter when the border is mirrored, is refused with an exception.", "quantifier": "all pictures, non-zero standard deviations, filter sizes, border conditions and thread schedules", "why_tests_cant": "A continuum of standard deviations and pixel values; errors at the borders and of the normalisation are small and easily hidden by a tolerance.", "anchors": ["image_operations.h: imgaussfilt, gaussianFigure1D, convn_1d", "image_operations.h: mirror_padding, replicate_padding, constant_padding"]}
{"id": "C95", "title": "Gaussian smoothing leaves features in place", "statement": "Smoothing a picture with a single bright point gives a picture that is brightest at the same point.", "quantifier": "all pictures with one bright point, standard deviations and filter sizes", "why_tests_cant": "A displacement by one pixel passes every visual check and every test on flat or smooth pictures; for even sizes it depends on the parity of the extents.", "anchors": ["image_operations.h: imgaussfilt, gaussianFigure1D"]}
{"id": "C96", "title": "Gaussian figures", "statement": "A Gaussian figure has the extents asked for and its pixels are the values of the (separable or correlated) two-dimensional Gaussian function around the centre; the normalised figure adds up to one; the elliptic figure is greatest at the centre and symmetric about it.", "quantifier": "all extents, centres, non-zero standard deviations and correlations", "why_tests_cant": "A continuum of parameters.", "anchors": ["image_operations.h: gaussianFigure1D, gaussianFigure2D"]}
{"id": "C97", "title": "Difference of Gaussians", "statement": "The difference of Gaussians is the pixelwise difference of two smoothed versions of the picture, with filters of 2 ceil(2 sigma) + 1 entries; a flat picture gives zero; a picture not larger than either filter is refused with an exception.", "quantifier": "all pictures and non-zero standard deviations", "why_tests_cant": "All standard deviations; the size at which it fails depends on the standard deviation.", "anchors": ["image_operations.h: difference_of_gaussian, computeFilterSizeFromSigma"]}
{"id": "C98", "title": "Pictures the keypoint search accepts", "statement": "With the default parameters the keypoint search generates octaves for every picture whose octaves have at least 20 x 20 pixels, the size at which it is meant to stop.", "quantifier": "all pictures, numbers of octaves and resampling functions", "why_tests_cant": "The failure depends on the extents modulo powers of two.", "anchors": ["image_operations.h: SIFT_impl::generate_octave, SIFT_impl::get_potential_keypoint, difference_of_gaussian"]}
{"id": "C99", "title": "Lanczos resampling", "statement": "Lanczos resampling yields a picture of the extents asked for whose pixels are the means of the source pixels around the corresponding position, weighted by the windowed sinc function (outside the source the nearest pixel counts); the weights never cancel, so flat pictures stay flat; resampling to the same extents changes nothing; the result is linear in the picture and commutes with mirroring; it stays within the range of the source values.", "quantifier": "all pictures, source and target extents, numbers of lobes and thread schedules", "why_tests_cant": "All pairs of extents give different phases; that the sum of weights is never zero is a fact about infinitely many positions.", "anchors": ["image_operations.h: lanczos_kernel, lanczos_resample, default_lanczos_resample"]}
{"id": "C100", "title": "Hue, saturation and value", "statement": "Converting an RGB pixel to HSV always gives a hue in [0, 360), the direction of the colour in the colour plane (red at 0, green at 120, blue at 240 degrees), a saturation in [0, 1] with value * saturation = largest - smallest channel, and the largest channel as value. Converting a pixel with hue in [0, 360), saturation in [0, 1] and value in [0, 256) to RGB gives the colour of the hexagonal cone, each channel rounded down. Converting a colour to HSV and back restores it, and hues that differ by a full turn mean the same colour.", "quantifier": "all RGB pixels and images of any size and dimensionality; all hues, saturations and values; exact arithmetic", "why_tests_cant": "16.7 million colours, and a continuum of HSV values; a test checks a few of them.", "anchors": ["image_operations.h: rgb2hsv, hsv2rgb"]}
{"id": "C101", "title": "False colours", "statement": "Showing a grey image in false colours keeps its extents, gives every grey level a pure colour (some channel 255, some channel 0), and gives different grey levels different colours, so the grey image can be recovered from the coloured one.", "quantifier": "all grey levels; images of any size and dimensionality", "why_tests_cant": "Injectivity concerns all pairs of images.", "anchors": ["image_operations.h: Grayscale2RGB, hsv2rgb"]}
{"id": "C102", "title": "Brightening", "statement": "Increasing the intensity by a factor multiplies the largest and the smallest channel of every pixel by the factor, rounded down, keeps the places of these channels, and keeps the third between them; a pixel that would become brighter than 255 is limited to 255.", "quantifier": "all RGB images of any size and dimensionality; all factors >= 0", "why_tests_cant": "All images and all real factors; an undefined conversion often looks right on the machine that runs the tests.", "anchors": ["image_operations.h: increase_intensity, rgb2hsv, hsv2rgb, getHplane, constructHSV, multiplies"]}
{"id": "C103", "title": "Turning by an angle below 90 degrees keeps every pixel inside the picture", "statement": "rotate_detail of a w x h picture by an angle strictly between 0 and 90 degrees returns a w x h picture and never throws: each pixel is turned about the centre, shrunk by the factor that makes the turned picture fit, and lands on a pixel of the result; where several land the last one in raster order stays, where none lands the pixel is zero. rotate drops whole quarter turns from the angle (135 degrees gives the same picture as 45). Angles in the other direction are also accepted.", "quantifier": "for all element types, sizes, pixels and real angles", "why_tests_cant": "that no pixel of no picture at no angle leaves the result is an inequality over all sizes and angles; a test sees single pictures", "anchors": ["image_operations.h: rotate_detail", "image_operations.h: rotate"]}
{"id": "C104", "title": "Turning by sampling loses nothing and is exact at quarter turns", "statement": "rotate_detail_shear_transformation by any angle (also negative or beyond a full turn) returns a picture of the size of the turned rectangle rounded up; every pixel shows the interpolated value at the position that the turn carries to it; the place of every source pixel lies inside the result; multiples of 90 degrees move the pixels without changing any value, the 90 degree shortcut agreeing with the general formula. The default interpolator returns every pixel exactly at its own position and zero outside the picture.", "quantifier": "for all sizes, pixels, real angles and interpolators that are exact at the pixels", "why_tests_cant": "the covering inequality and the agreement of the special case with the general formula concern all sizes and angles", "anchors": ["image_operations.h: rotate_detail_shear_transformation", "image_operations.h: default_bicubic_interpolator", "image_operations.h: bilinear_interpolate"]}
{"id": "C105", "title": "The Butterworth lens pulls every pixel towards the centre and stays inside the picture", "statement": "butterworth_fisheye with positive D0 and N returns a picture of the same size and never throws: each pixel moves along its ray to the distance t / sqrt(1 + (t / D0)^(2 N)); the last pixel to land stays and the rest is zero; for N >= 1 everything ends within the radius D0; pixels farther out stay farther out.", "quantifier": "for all sizes, pixels, D0 > 0 and N > 0", "why_tests_cant": "monotonicity and the bounds are statements about all distances and parameters", "anchors": ["image_operations.h: butterworth_fisheye"]}
{"id": "C106", "title": "The Gaussian lens finds the distance it inverts and shows the nearest pixel", "statement": "The root finder of gaussian_fisheye returns the only distance r below D0 with r e^(-r^2 / (2 D0^2)) equal to the given one, to within D0 / 2^51, and D0 when there is none; each pixel of the result shows the input pixel nearest to the place on its ray at that distance, or zero when that place is outside; the OpenMP and the execution policy version agree for every order of the pixels.", "quantifier": "for all D0 > 0, distances, pictures and orders of execution", "why_tests_cant": "existence, uniqueness and precision of the root are statements about all real parameters; the order of parallel execution is not under a test's control", "anchors": ["image_operations.h: GaussianFisheyeInverseRootFinder", "image_operations.h: FisheyePixelMapper", "image_operations.h: gaussian_fisheye"]}
{"id": "C107", "title": "The bilateral filter stays within the range of the picture", "statement": "With non-negative kernels that are positive at distance 0, bilateral_filter of a two-dimensional picture succeeds for every boundary condition, and if all pixels (and the padding value, for constant padding) lie between two values of the element type so do all pixels of the result; a picture of one value is returned unchanged, and bytes stay whole numbers from 0 to 255. This holds in whatever order the pixels are visited.", "quantifier": "for all pictures, window sizes, kernels, boundary conditions and orders of execution", "why_tests_cant": "kernels are arbitrary functions and the filter overwrites the pixels it reads, so the result depends on the order of a parallel run; tests see a few kernels and one order", "anchors": ["image_operations.h: bilateral_filter", "image_operations.h: bilateral_filter_detail", "image_operations.h: bilateral_filter_spatial_kernel", "image_operations.h: windowed_filter"]}
{"id": "C108", "title": "Neighbours at the same distance count the same in the bilateral filter", "statement": "The weight of a neighbour in bilateral_filter is the range kernel of the difference in value times the spatial kernel of its distance from the pixel, so mirroring a picture mirrors its filtered version, and transposing the picture and the window transposes it.", "quantifier": "for all pictures, window sizes, kernels and boundary conditions", "why_tests_cant": "a picture that looks smoothed passes a visual test; which neighbours contributed is a statement about every position of every window", "anchors": ["image_operations.h: bilateral_filter", "image_operations.h: bilateral_filter_spatial_kernel"]}
{"id": "C109", "title": "The patch distance is a mean square and its weight decreases with it", "statement": "DefaultPatchDistance of two centres is the mean of the squared differences of the two patches, positions outside the window counting as 0, whatever the order of summation; it is symmetric, never negative and 0 exactly for equal patches. DefaultWeightCalculation gives 1 exactly for distance 0 and otherwise a positive weight below 1 that strictly decreases with the distance.", "quantifier": "for all windows, centres, patch sizes, and non-zero h", "why_tests_cant": "all centres including those whose patches leave the window, and all distances", "anchors": ["image_operations.h: DefaultPatchDistance", "image_operations.h: DefaultWeightCalculation"]}
{"id": "C110", "title": "The Gaussian fit uses the true derivatives of its misfit and steps downhill", "statement": "In every iteration of estimate_gaussian_parameters_2d the reduced accumulator holds, whatever the order of the parallel reduction, the sum of squared differences between picture and Gaussian, minus half of its partial derivative for each of the six parameters, and the sums of the products of the derivatives of the Gaussian. The correction tried solves the normal equations damped by lambda times the squared scale of each parameter (or is zero, only for lambda below 1e-11), and the misfit decreases along it at once unless the correction is zero.", "quantifier": "for all non-empty two-dimensional pictures, all parameters with positive deviations and correlation between -1 and 1, all positive dampings, all reduction orders", "why_tests_cant": "a statement about derivatives at every parameter vector and every reduction order", "anchors": ["image_operations.h: estimate_gaussian_parameters_2d", "image_operations.h: solve_linear_system"]}
{"id": "C111", "title": "The Gaussian fit always ends with usable parameters that never get worse with more iterations", "statement": "For every non-empty two-dimensional picture, iteration limit and tolerance the fit returns exactly one result, the same for every reduction order, with deviations of at least 1e-6 and correlation at most 0.999 in size. With no iterations it is the first brightest pixel, its value, and the intensity-weighted spreads and correlation of the pixels brighter than a tenth of it. A larger iteration limit never gives a larger sum of squared differences. A picture of another dimensionality is refused; an empty one is undefined behaviour.", "quantifier": "for all pictures, iteration limits and tolerances", "why_tests_cant": "all pictures and all iteration limits; uniqueness over all reduction orders", "anchors": ["image_operations.h: estimate_gaussian_parameters_2d"]}
{"id": "C112", "title": "The Gaussian fit stops exactly at stationary points", "statement": "Once the derivatives of the misfit all vanish, or the picture is fitted exactly, further iterations keep the parameters. Conversely with a tolerance of 0, as long as the parameters are strictly within their bounds and some derivative does not vanish, enough further iterations improve the misfit strictly. With a positive tolerance the fit should still only stop where the misfit is stationary.", "quantifier": "for all pictures, tolerances and numbers of iterations", "why_tests_cant": "a convergence statement over unboundedly many iterations", "anchors": ["image_operations.h: estimate_gaussian_parameters_2d"]}
{"id": "C113", "title": "Drawing fitted Gaussian parameters reproduces the fitted function", "statement": "gaussianFigure2D of a set of parameters draws, for every execution policy, the Gaussian with these centre, deviations and correlation and with amplitude factor / (2 pi sx sy sqrt(1 - rho^2)); with the factor chosen to match the fitted amplitude the drawing differs from the fitted picture by exactly the misfit. With the default factor the drawing should have the amplitude of the parameters.", "quantifier": "for all parameters with positive deviations and correlation between -1 and 1, sizes and factors", "why_tests_cant": "equality of functions for all parameters and all row orders", "anchors": ["image_operations.h: gaussianFigure2D", "image_operations.h: GaussianParameters2D"]}
{"id": "C114", "title": "The three-dimensional Gaussian figure is the product of three Gaussians", "statement": "gaussianFigure3D gives a picture of the requested three sizes whose element at (x, y, z) is the product of the three unnormalised Gaussians around the centre; every element is positive and at most 1, and is 1 exactly at the centre.", "quantifier": "for all sizes with positive width and height, all centres and all non-zero deviations", "why_tests_cant": "all sizes, centres and deviations", "anchors": ["image_operations.h: gaussianFigure3D"]}
{"id": "C115", "title": "Questions about all pixels, some pixel or no pixel are answered for the whole picture", "statement": "For a picture of any number of dimensions and any predicate, the all-of question says yes exactly when the predicate holds at every position, the any-of question exactly when it holds at some position, the none-of question exactly when it holds nowhere; the fifteen ready-made questions (all/any/none with positive, non-negative, zero, negative, non-positive) mean exactly that. Asking whether two matrices have the same size says yes exactly when their extents are equal, and the check that throws does so exactly when the extents differ. For pictures with more than two dimensions the size question looks at width and height only and says yes for pictures of different sizes.", "quantifier": "all pictures of any number of dimensions and extents, all predicates", "why_tests_cant": "the predicate and the picture range over unbounded sets; an empty picture, a hit at the last element or a wrong boundary of a sign test are easily left out of a test suite", "anchors": ["image_operations.h: all_of, any_of, none_of, all_positive, any_zero, none_negative, is_size_same, check_size_same"]}
{"id": "C116", "title": "Normalising brings a picture onto the range from 0 to 1 and keeps its order", "statement": "A picture that is not empty and not constant is normalised to (value - smallest) / (largest - smallest) at every position: all values lie between 0 and 1, both 0 and 1 occur, two positions compare as before, normalising again changes nothing, and multiplying the picture by a positive number and adding a number beforehand changes nothing. A constant picture is not brought onto that range: every value becomes 0/0, which is not a number.", "quantifier": "all real pictures of any number of dimensions and any size; exact arithmetic", "why_tests_cant": "range, order and invariance are relations over all pictures and all brightness and contrast changes; a constant picture is the case a test leaves out", "anchors": ["image_operations.h: normalize"]}
{"id": "C117", "title": "Highlighting a region paints exactly its frame or nothing at all", "statement": "When the rectangle enlarged by half the frame width lies inside the picture, highlighting paints exactly the pixels of the enlarged rectangle that are not inside the rectangle reduced by the frame width, and leaves all others. When the region starts nearer to the left or top border than half the frame width, the start of the loop wraps around and the picture comes back unchanged. When it reaches past the right or bottom border, an exception is thrown.", "quantifier": "all RGB pictures, all regions and frame widths whose ends stay below 2^31", "why_tests_cant": "the exact shape is a statement about every pixel for every rectangle and width; the wrap-around happens only near two of the four borders", "anchors": ["image_operations.h: highlight_region"]}
{"id": "C118", "title": "Generating a picture calls the generator once per pixel, in storage order", "statement": "For extents whose product is positive and below 2^31, generating a picture succeeds and the pixel stored at offset k is the result of the k-th call of the generator, whatever the generator and its state. For extents with a product of 0, or of at least 2^31 and below 2^64, no picture results although one of that size may exist (the count is kept in an int): an exception is thrown - std::length_error exactly if the low 32 bits of the product, as an int, are negative, else std::runtime_error - except that with four or more extents the multiplication of ints may overflow, which is undefined. A product of 2^64 or more may wrap around to a small count, and then a picture with fewer pixels than its extents say is accepted.", "quantifier": "all generators with all states, all lists of extents", "why_tests_cant": "order and number of calls matter for every generator; the limit on the product is far beyond what a test allocates", "anchors": ["image_operations.h: generate"]}
{"id": "C119", "title": "Adding a border surrounds the picture and cutting it off gives the picture back", "statement": "Adding a border of a given width to a matrix gives a matrix larger by twice the width in both directions, whose interior is the input and whose border has the given value everywhere; cutting the interior out again gives back exactly the input. A picture that is not two-dimensional is rejected.", "quantifier": "all matrices, all border widths for which the extents fit, all border values, all schedules of the cutting loop", "why_tests_cant": "a statement about every pixel of every picture and border width, and about a composition of two functions", "anchors": ["image_operations.h: add_border_2d, subimage2"]}
{"id": "C120", "title": "Finding the homography of two pictures", "statement": "The homography found for two pictures is computed from exactly the mutual matches of their keypoints. With fewer than four of them the result is the empty matrix. With four or more the result is a three by three matrix: if some drawn sample of four gives a matrix that the estimator accepts, its lower right entry is one. An empty matrix is the way a failure is reported.", "quantifier": "all pictures and detectors, all descriptors and distances, all schedules, both estimators, all random draws, iteration counts and thresholds, all solvers", "why_tests_cant": "the result depends on random draws, on schedules and on the solver; a test sees one of each", "anchors": ["image_operations.h: find_stitch_homography, find_homography_robust, refine_homography, compute_homography"]}
{"id": "C121", "title": "Stitching a sequence returns the panorama of the longest stitchable prefix", "statement": "Stitching a list of pictures gives the empty image for no pictures, the picture for one, and otherwise the panorama obtained by joining the pictures one after the other to the first; if for some picture no homography is found or the joined picture has no columns, the panorama of the pictures before it is returned, whatever comes after. The panorama is at least as large as the first picture.", "quantifier": "all lists of pictures of any length, all homographies found, all interpolators and schedules", "why_tests_cant": "an induction over the number of pictures; the failure may happen at any of them", "anchors": ["image_operations.h: stitch_sequential, create_stitched_image, find_stitch_homography"]}
{"id": "C122", "title": "Drawing matches paints lines and discs over the two pictures side by side", "statement": "The drawing of matches is as wide as the two pictures together and as high as the higher; it shows both side by side, stretched to that height, and over them for each match, in order and in its colour, a straight line of pixels between the two keypoints and discs around them; every other pixel is untouched. The ends of a line lie on the pixels of its keypoints.", "quantifier": "all RGB pictures of any size, all keypoints within them, all lists of matches and colours, all schedules", "why_tests_cant": "a statement about every pixel for every list of matches; the colours are random", "anchors": ["image_operations.h: draw_matches, draw_line, draw_point, copyResizeBicubic, concat_horizontal"]}
{"id": "C123", "title": "The container commands build, read and shorten containers exactly", "statement": "create_container makes a one-element vector of its input; append_element puts an element of exactly the element type at the end and keeps the kind of the container; get_element gives the element at an index; erase_element removes exactly that element and keeps the order. After one create_container and any number of append_element the container holds the elements in the order of the commands, and each can be taken out again. A wrong type, an index out of range or an output that is not a variable changes nothing; no command changes anything but its output variable. Every container that create_container makes can be used by the other commands.", "quantifier": "all workspaces, names, values and element types, all containers of any length, all histories of appends", "why_tests_cant": "an induction over histories of any length, for all contents of the workspace", "anchors": ["main.h: handlers::create_container, handlers::append_element, handlers::erase_element, handlers::get_element, dispatch_data_operation, master_data_types, master_image_container_types"]}
{"id": "C124", "title": "transform_container applies a command to every element", "statement": "Without a policy and with seq, transform_container stores in its output variable the vector of the results that the command gives for the elements, in their order, and changes nothing else; an empty container gives an empty vector. If the command fails for an element the output variable is not written and the failure is reported to the user. Variables of the user are never touched, and results of any type a command can produce are kept.", "quantifier": "all workspaces, containers of any length, commands of the two generic handlers with any processor, sub-arguments, positions of the policy word", "why_tests_cant": "an induction over the elements, for every command and workspace; the failure may happen at any element", "anchors": ["main.h: handlers::transform_container, MetaTransformHandler, MetaScalarHandler, dispatch_policy_string, Workspace::store, Workspace::retrieve_any, Workspace::remove"]}
{"id": "C125", "title": "transform_container with par gives the sequential result", "statement": "With the policy par, in whatever order the threads of the elements take turns at the workspace, the results are those of the sequential version in the order of the elements, no helper variable is left over and no other variable changes. A failing command is reported like in the sequential version.", "quantifier": "all interleavings of the workspace operations of any number of threads, all containers, all processors", "why_tests_cant": "the number of interleavings is unbounded and a test sees one of them", "anchors": ["main.h: handlers::transform_container, Workspace, dispatch_policy_string"]}
{"id": "C126", "title": "remove and rename touch exactly the named variables", "statement": "remove takes away exactly the variables named in its arguments, with the single argument all every variable, and no file; rename moves the value of a variable to another name, replacing what was there, and changes no other variable; without the variable, or with an argument that is no variable, it does nothing. The word all always removes everything.", "quantifier": "all workspaces, all lists of arguments of any length", "why_tests_cant": "for all contents of the workspace and all argument lists, with repetitions and names that differ only in blanks", "anchors": ["main.cpp: handlers::remove, handlers::rename; main.h: Workspace::remove, Workspace::rename, Workspace::clear"]}
{"id": "C127", "title": "A dynamic library object closes its library exactly once", "statement": "Whatever a program does with DynamicLibrary objects - constructing, moving, move-assigning, also to itself, destroying - no library is closed that is not open, a library is open exactly as often as there are objects that hold it, and when the objects are gone none is open.", "quantifier": "all sequences of operations of any length on any number of objects, all libraries, opened any number of times", "why_tests_cant": "an invariant over all sequences of operations; a double close need not be noticed by a test", "anchors": ["dynamic_loader.h: DynamicLibrary"]}
{"id": "C128", "title": "Plugins add commands and never break the program", "statement": "However often directories of plugins are loaded, every command that is registered can be run, because the library with its code is held open; a command keeps the handler that was registered first, so no plugin replaces a command of the program or of an earlier plugin; a file that is no library, cannot be opened or lacks the entry point changes nothing; at the end the handlers are destroyed before their libraries, and every library is closed. A plugin that fails to register is skipped without any effect, and the same directory always gives the same commands.", "quantifier": "all sequences of directories with any files, all growth policies of the vector of libraries", "why_tests_cant": "an invariant over all histories of loading; the order of destruction shows only as a crash at exit", "anchors": ["main.cpp: load_plugins, main; main.h: CommandRegistry::register_command; dynamic_loader.h: DynamicLibrary"]}
{"id": "C129", "title": "Numbers on the command line", "statement": "An argument that must be a size is read as n exactly when, after quotes and white space at its ends are removed, it is n in decimal, with any number of zeros before it and with n below 2^64; so every size a user writes is read back as itself, an empty argument, a sign, a word or a number of 2^64 and more are refused, and for a signed type a minus sign is understood and the limits of the type are kept. Text after the digits is refused.", "quantifier": "all strings, all integral types", "why_tests_cant": "unboundedly many strings; the accepted language is a property of all of them", "anchors": ["main.h: parse_arg, sanitize_arg"]}
{"id": "C130", "title": "zeros and ones make a constant image of the given extents", "statement": "zeros and ones store an image that has the given extents, however many there are, and in which every pixel is the constant; when one extent is not a number nothing is stored. The extents are as given for every list of numbers.", "quantifier": "all lists of extents, all output names, all states", "why_tests_cant": "any number of dimensions and sizes, including products that do not fit", "anchors": ["main.h: make_zeros_or_ones handler; image.h: Image constructor"]}
{"id": "C131", "title": "grid draws black lines at the multiples of the cell size", "statement": "grid stores an RGB image of the given width and height in which a pixel is black exactly when its column or its row is a multiple of the cell size (10 when it is not given) and white otherwise, with every execution policy. Every cell size that is a number is accepted.", "quantifier": "all sizes, all cell sizes, all policies and orders of execution", "why_tests_cant": "all sizes and all parallel orders", "anchors": ["main.h: grid command"]}
{"id": "C132", "title": "constructRGB puts three planes together", "statement": "constructRGB stores the RGB image whose channels at each position are the pixels of the three planes there, so taking the planes of the result gives the arguments back; planes of different sizes are refused and nothing changes, with every execution policy. This holds for planes of any number of dimensions.", "quantifier": "all planes, all policies and orders of execution", "why_tests_cant": "all sizes and orders; the round trip is an equation between two commands", "anchors": ["main.h: constructRGB command; image_operations.h: getRplane, getGplane, getBplane, constructRGB"]}
{"id": "C133", "title": "subimage takes a window", "statement": "subimage x y w h stores the image of size w by h whose pixel at (i, j) is the input's at (x + i, y + j) when the window lies in the image, for every policy and type of pixel; otherwise nothing is stored and the program goes on.", "quantifier": "all images, all offsets and sizes, all policies and orders of execution", "why_tests_cant": "the offsets range over 64 bits and their sums wrap; all orders of execution", "anchors": ["main.cpp: subimage command"]}
{"id": "C134", "title": "count stores the number of equal elements", "statement": "count stores under the output name how many elements of its input are equal to the target, which is a literal or a variable, for every policy, and changes nothing else; without an output it changes nothing. This holds for images as for containers, and equal means equal as numbers.", "quantifier": "all containers and images of integers of any width, all targets of any integral type, all policies and orders", "why_tests_cant": "mixed integral types compare through conversions; the result must not depend on the schedule", "anchors": ["main.h: count command; image_operations.h: count"]}
{"id": "C135", "title": "replace changes exactly the elements equal to the target", "statement": "replace saves an image or container of the same shape in which every element equal to the target is the new value and every other one is unchanged, with every policy. A target that no element has changes nothing.", "quantifier": "all images and containers of integers, all targets and new values, all policies and orders", "why_tests_cant": "conversions between integral types and all schedules", "anchors": ["main.h: replace command; image_operations.h: replace"]}
{"id": "C136", "title": "multiply keeps the elements of a container in their type", "statement": "multiply on a container of integers saves, element by element, the product cut off towards zero, and the smallest or largest value of the type when the product lies outside, with every policy.", "quantifier": "all integral element types, all elements, all rational factors, all policies and orders", "why_tests_cant": "saturation and rounding over all values", "anchors": ["main.h: multiply command"]}
{"id": "C137", "title": "sum of a container", "statement": "sum stores the sum of the elements of a container of integers when the sum of their absolute values fits in the type, in whatever order and grouping a policy combines them; for an unsigned type it is always the sum modulo the number of values, and for bool whether some element is true. Otherwise it stores the true sum as well.", "quantifier": "all containers of integers, all orders and groupings of std::reduce", "why_tests_cant": "all groupings; overflow that is undefined shows in no test", "anchors": ["main.h: sum command, MetaReduceHandler"]}
{"id": "C138", "title": "read and write choose names and touch nothing else", "statement": "A path has exactly one directory, stem and extension; read with one argument stores the image under the stem, and with a second argument that begins with a dollar sign under that name; write hands the value of a variable to the named file or variable; in every other case, and when the file cannot be read, nothing changes. Reading two files never makes one replace the other.", "quantifier": "all paths, all states", "why_tests_cant": "all strings as paths, with dots and slashes at any place", "anchors": ["main.h: read command; main.cpp: write command"]}
{"id": "C139", "title": "An image can be read under the name it was written to", "statement": "When an image of a kind (RGB, double or HSV) is written to a file name and that name is read, the file and the kind are the same exactly when the name is of a certain form: for RGB no extension, .bmp, or .ppm with any capitals; for double .dbmp or .csv with any capitals; for HSV .hsv. For these names writing and reading gives the image back. Every file name gives the image back.", "quantifier": "all file names, all kinds of images, all file systems as tables of names", "why_tests_cant": "the condition is an equivalence over all file names", "anchors": ["main.h: MetaImageIO::Saver, MetaImageIO::Loader, dispatch_data_operation; image_io.cpp: bmp_write, bmp_read, double_image write and read, hsv_write, hsv_read"]}
{"id": "C140", "title": "A printed picture can be read back", "statement": "print(separator) of a picture with any number of axes writes its pixels in storage order, the separator after each, a newline after every run of the first axis and another where an outer axis ends. Two pictures without an empty axis that print as the same text have the same extents and the same pixels: for integers if the separator does not begin with a digit or a minus sign, for RGB and MultiChannel pixels with every separator. The number of axes can be read too, if the separator does not end in a newline.", "quantifier": "all pictures of all numbers of axes and extents, all separators", "why_tests_cant": "Unambiguity of a text format is a statement about pairs of pictures of every size; a test compares one picture with one string.", "anchors": ["image.h: Image::print", "image.h: print_recursive_helper", "base_types.h: operator<<(RGB)"]}
{"id": "C141", "title": "The commands print and info show the value", "statement": "For a number or a container of numbers the text that the command print writes on the stream it was given determines the value. For a picture that stream receives the same text whatever the pixels are, because the pixels go to the standard output; there they determine the picture. The command info writes the extents, and its text is the same for two pictures exactly when the extents are.", "quantifier": "all values, all pictures", "why_tests_cant": "Tests look at samples; that no two values share a text needs all pairs.", "anchors": ["main.cpp: print", "main.cpp: info", "image.h: Image::print"]}
{"id": "C142", "title": "The list of variables can be read back", "statement": "If the names of the variables have no blanks and the type names no closing square bracket, the text of the command vars determines the list of variables in order, and of each the name, the type and the summary: the extents of a picture, the number of pictures in a container and the extents of the first, the elements of a container of numbers, a number. A name that ends in a blank can be confused with the name without it.", "quantifier": "all workspaces of listed types", "why_tests_cant": "Quantifies over pairs of workspaces with any number of variables.", "anchors": ["main.h: Workspace::list_variables", "main.cpp: vars"]}
{"id": "C143", "title": "print_with_latex writes every pixel once and can be read back", "statement": "The text of print_with_latex has, between the lines that open and close the picture, one line for each pixel, row by row, with its place and its colour. Two pictures that are not empty and give the same text are equal; empty pictures of different extents give the same text.", "quantifier": "all two-dimensional RGB pictures", "why_tests_cant": "Needs all pairs of pictures of every size.", "anchors": ["image_operations.h: print_with_latex", "image_operations.h: print_with_latex_to_file"]}
{"id": "C144", "title": "recursive_print shows the whole container", "statement": "For containers of integers nested to the same depth, of any shapes and with empty containers anywhere, the text of recursive_print determines the container, and the lines that are indented by the depth are its elements in order.", "quantifier": "all depths, all nested containers", "why_tests_cant": "Nesting depth and shapes are unbounded and the claim is about pairs of containers.", "anchors": ["basic_functions.h: recursive_print"]}
{"id": "C145", "title": "The commands add and subtract combine two pictures pixel by pixel, and one undoes the other", "statement": "For two pictures of the same extents and type, add (subtract) stores under the output the picture whose every pixel is the sum (difference) of the two pixels, in the type of the inputs and, for types smaller than int and unsigned types, modulo its size; RGB pixels are combined channel by channel. Subtracting the second picture from the stored sum gives back the first picture exactly for every integer type in which no signed overflow occurs and for RGB. Pictures of different extents, of different types, bool pictures, containers and numbers are refused and nothing changes. A signed overflow of int or a wider type at any pixel is undefined behaviour. It is not so that subtract clamps at zero as the library function of the same name does.", "quantifier": "all pictures of all extents and integer types, all states of the workspace, all argument lists", "why_tests_cant": "Wrap-around and overflow depend on values and types; the round trip is over all pairs of pictures.", "anchors": ["main.h: add and subtract handlers", "image.h: operator+ and operator-", "base_types.h: RGB operator+ and operator-", "image_operations.h: subtract"]}
{"id": "C146", "title": "The command abs stores absolute values, in a type that holds them, whatever the policy", "statement": "abs stores a value of the same shape whose every element is the absolute value of the input's, for images and containers of integers and doubles and channel by channel for RGB; the elements of a signed type smaller than int become int, so that no value is lost, and applying abs to the result changes nothing. The order in which an execution policy visits the elements does not matter. The least value of a signed type of int's width or wider is undefined behaviour. Missing arguments, missing variables and numbers leave the state unchanged.", "quantifier": "all values, element types, policies and schedules, states and argument lists", "why_tests_cant": "Needs every schedule of the policy, every element type and every element.", "anchors": ["main.h: abs handler", "image_operations.h: abs", "basic_functions.h: generic_abs, recursive_transform"]}
{"id": "C147", "title": "The commands max and min give a greatest and a least element and change nothing else", "statement": "For a picture or container that is not empty, max (min) gives an element that occurs in it and that no element exceeds (falls below), in the type of the elements; for RGB the three of the channels in order. The value is stored only under an output that begins with a dollar sign, and no other variable and no file changes; without such an output the state is unchanged. An empty picture is undefined behaviour.", "quantifier": "all pictures and containers, states and argument lists", "why_tests_cant": "All sizes and values; the frame condition is about every other variable.", "anchors": ["main.h: max and min handlers, MetaScalarHandler", "image_operations.h: max, min"]}
{"id": "C148", "title": "The command manhattan_distance gives the sum of the absolute differences", "statement": "For two pictures of the same extents and type the distance is the sum over all pixels of the absolute difference, for RGB one such sum for each channel; exchanging the pictures gives the same distance. Pictures of different extents or types are refused and the state is unchanged. For signed types of int's width or wider a difference that does not fit is undefined behaviour.", "quantifier": "all pairs of pictures, states and argument lists", "why_tests_cant": "Overflow depends on values; symmetry is over all pairs.", "anchors": ["main.h: manhattan_distance handler", "image_operations.h: manhattan_distance, difference"]}
{"id": "C149", "title": "Splitting a picture into planes and constructing it again gives the picture", "statement": "getRplane, getGplane and getBplane of one RGB picture stored under three different names, followed by constructRGB of the three names, stores the picture itself, with any execution policy. Values other than RGB pictures are refused and the state is unchanged.", "quantifier": "all RGB pictures of bytes, all names, policies, schedules and states", "why_tests_cant": "A sequence of four commands over all states, names and schedules.", "anchors": ["main.h: getRplane, getGplane, getBplane and constructRGB handlers", "image_operations.h: getPlane, constructRGB"]}
{"id": "C150", "title": "im2double followed by im2uint8 gives the picture back", "statement": "For every picture of bytes, grayscale or RGB, storing im2double of it and then im2uint8 of that stores the picture itself. Every other type is refused and the state is unchanged. im2uint8 of a picture of doubles with a value that does not truncate to a byte is undefined behaviour.", "quantifier": "all pictures of bytes, names, states", "why_tests_cant": "Two commands over all pictures and states.", "anchors": ["main.h: im2double and im2uint8 handlers", "image_operations.h: im2double, im2uint8"]}
{"id": "C151", "title": "A function of one element reaches every channel of every pixel, alone", "statement": "pow, sqrt, cbrt, the circular and hyperbolic functions with their inverses, the roundings, exponentials and logarithms, given a pixel of any number of channels, return a pixel with as many channels, each being the function of that channel alone; with an execution policy the result is the same whatever the order of the channels. Given a picture of one, three or any number of channels they keep its extents and give at each position what they give for that pixel. pow of a picture with a policy equals pow without.", "quantifier": "for all pictures of any number of dimensions and any extents, all numbers of channels, all values, all orders of the parallel loops", "why_tests_cant": "The functions are written three times (number, pixel, picture by planes) with a policy variant of each; agreement of the copies for every picture and every interleaving is a relation between programs, not a test value.", "anchors": ["/repo/basic_functions.h:apply_multichannel", "/repo/basic_functions.h:sec", "/repo/basic_functions.h:csc", "/repo/image_operations.h:apply_each", "/repo/image_operations.h:pow", "/repo/image_operations.h:sin", "/repo/image_operations.h:cot"]}
{"id": "C152", "title": "The functions are the ones their names say", "statement": "In exact arithmetic each inverse function undoes its function on every channel of a pixel and every pixel of a picture (sin and asin, cos and acos, tan and atan, sinh and asinh, cosh and acosh, tanh and atanh, exp and log, exp2 and log2, expm1 and log1p, sqrt and pow 2, cbrt and pow 3, each on its domain, in both orders); sin squared plus cos squared is 1, cosh squared minus sinh squared is 1, sec, csc and cot are the reciprocals, tanh is the quotient; pow adds exponents and a whole positive exponent is repeated multiplication; floor, ceil, trunc, nearbyint and rint return the integer their names say with ties to even; outside its domain a function gives no finite number and no function makes one of that.", "quantifier": "for all real numbers in the domain named, all pictures and numbers of channels, all orders of the parallel loops", "why_tests_cant": "Identities over the reals hold at every argument or not at all; a test reads a few arguments up to a tolerance.", "anchors": ["/repo/basic_functions.h:pow", "/repo/basic_functions.h:asin", "/repo/basic_functions.h:acosh", "/repo/basic_functions.h:nearbyint", "/repo/basic_functions.h:log1p", "/repo/image_operations.h:asin"]}
{"id": "C153", "title": "Complex pictures keep both parts and conversions change values only", "statement": "generate_complex_image of two pictures of equal extents has the first as real and the second as imaginary parts and throws when extents differ; to_complex of a picture, with any policy, is generate_complex_image of it and a picture of zeros; to_double keeps the extents and converts every element at its position, for one and for three channels, with any policy.", "quantifier": "for all pictures of any number of dimensions and any extents, all element values, all orders of the parallel loops", "why_tests_cant": "The claims are for all extents, values and schedules of the parallel loops.", "anchors": ["/repo/image_operations.h:generate_complex_image", "/repo/image_operations.h:to_complex", "/repo/image_operations.h:to_double"]}
{"id": "C154", "title": "Differences and distances of colour pictures", "statement": "difference of two ranges of one length is the absolute difference of the elements converted to their type, in any order of the loop, and for unsigned elements the absolute difference itself; ranges of different lengths are refused. euclidean_distance of two pictures of several channels gives for each channel the root of the sum of the squared differences whatever the order of the reduction, is symmetric, and is zero exactly for equal pixels. It should also refuse pictures of different extents and hold for pictures of bytes.", "quantifier": "for all ranges and pictures, all numbers of channels, all orders of the loop and of the reduction", "why_tests_cant": "The result of a parallel reduction must not depend on the grouping the library picks, which a test cannot choose; the wrap-around of bytes shows for some pairs of values only.", "anchors": ["/repo/image_operations.h:difference", "/repo/image_operations.h:euclidean_distance", "/repo/basic_functions.h:two_input_map_reduce", "/repo/base_types.h:RGB"]}
{"id": "C155", "title": "Random pictures hold the next values of the engine, in storage order", "statement": "Making a random picture of doubles from an engine, with extents whose product is positive and below 2^31, succeeds: the picture has these extents, its pixels in storage order are the next values of the distribution, each in [0, 1), and the engine has afterwards given exactly these values, so that two pictures made one after the other are the halves of one picture made at once. Without extents one pixel is made, as for the extents 1 and 1. Random whole numbers lie between both limits (from 1 with one limit) and without extents make a picture with one extent. Limits in the wrong order are undefined. Negative extents are not refused: they can give a picture with fewer pixels than its extents say.", "quantifier": "all engines with all states, all distributions within their standard bounds, all lists of extents, all limits", "why_tests_cant": "a test sees one engine and one seed; the order and number of the draws matter for reproducing every picture", "anchors": ["image_operations.h: rand", "image_operations.h: randi"]}
{"id": "C156", "title": "The command rand stores a picture of the asked sizes or changes nothing", "statement": "With the exact name of one of the nine engines, an output and at least one size, where each size is a number and their product is positive and below 2^31, the command rand stores under the output a picture with these extents whose values lie in [0, 1) and are the first ones of that freshly seeded engine. With fewer than three arguments, another name or an argument that is no size, nothing changes; nor with up to three sizes whose product is zero, or from 2^31 up and below 2^64. Four sizes whose product overflows an int are undefined behaviour.", "quantifier": "all argument lists, all sessions, all engines and seeds, all ways of saving a file", "why_tests_cant": "argument lists and sizes are unbounded, and the results are random", "anchors": ["main.cpp: rand", "image_operations.h: rand"]}
{"id": "C157", "title": "Smoothing along an angle keeps the extents and agrees with plain smoothing at whole turns", "statement": "Gaussian smoothing with an angle gives, for every angle, a picture with the extents of the input (with the mirror border, kernels must be smaller than the picture). At every whole turn it is exactly plain Gaussian smoothing. At the four quarter turns, with odd kernel sizes, each pixel is the weighted sum the angle asks for, with the two standard deviations exchanged at odd quarters. A picture which is not two-dimensional, or a standard deviation which is not positive, is refused. A black picture stays black with a black border. The three channels of a colour picture are smoothed each for itself. Smoothing a constant picture leaves it constant at every angle, and turning the kernel by half a turn changes nothing.", "quantifier": "all pictures, angles, standard deviations, kernel sizes, borders and schedules", "why_tests_cant": "angles are real numbers and the extents after rotating forth and back depend on rounding up at each angle", "anchors": ["image_operations.h: imgaussfilt", "image_operations.h: rotate_detail_shear_transformation"]}
{"id": "C158", "title": "The dct2 and idct2 commands transform every channel and undo each other", "statement": "dct2 stores under the output name the two-dimensional cosine coefficients of every channel of the input picture, as doubles, whatever execution policy is named; gray, integer and colour pictures are all accepted. Running idct2 on what dct2 stored, or dct2 on what idct2 stored, gives back the values of the original picture, channel by channel, and leaves every other variable as it was. With fewer than two arguments nothing changes.", "quantifier": "all pictures, extents, channels, argument lists, policies, schedules and workspace states", "why_tests_cant": "the coefficients are real numbers and the identity is needed for every extent, picture and policy", "anchors": ["main.h: dct2", "main.h: idct2", "image_operations.h: dct2", "image_operations.h: idct2"]}
{"id": "C159", "title": "The rotate command turns a picture by the given angle and stores the smallest frame holding it", "statement": "rotate stores a picture whose extents are the turned extents rounded up, of the same pixel type as the input. A pixel whose turned-back position falls exactly on an input pixel has its value, and one whose turned-back position lies outside is black. At every whole number of turns the stored picture equals the input. An angle that cannot be read, or too few arguments, changes nothing.", "quantifier": "all pictures whose pixel type a double holds exactly, all angles, argument lists and states", "why_tests_cant": "angles are real numbers, and the frame is rounded up from a sum of sines and cosines", "anchors": ["main.cpp: rotate", "image_operations.h: rotate_detail_shear_transformation", "image_operations.h: rotate"]}
{"id": "C160", "title": "The lanczos_resample command resamples every channel, and its radius is read modulo 2^32", "statement": "lanczos_resample stores, for every channel, the normalised Lanczos interpolation of the input with the given extents and radius (three when none is given); pictures with whole-number pixels get the value cut off to their range. Resampling to the same extents gives the picture back. The radius is used modulo 2^32: a radius that is a multiple of 2^32, or that becomes negative as a 32-bit number, gives a black picture. An argument that is not a number, or too few arguments, change nothing.", "quantifier": "all pictures, extents, radii, argument lists, policies, schedules and states", "why_tests_cant": "the interpolation uses real-valued weights, and the wrap-around happens only for radii no test tries", "anchors": ["main.cpp: lanczos_resample", "image_operations.h: lanczos_resample"]}
{"id": "C161", "title": "The normalize and gaussian_figure_2d commands store the stretched picture and the bell", "statement": "normalize stores the picture stretched linearly so that its least value becomes 0 and its greatest 1; normalising the result, or the input with another brightness and positive contrast, stores the same picture. Pictures with whole-number or colour pixels are refused and nothing changes. gaussian_figure_2d stores the bell exp(-((x-cx)^2+(y-cy)^2)/(2 sigma^2)) with the given extents, also when the centre is outside; fewer than six arguments, or a number that cannot be read, change nothing.", "quantifier": "all pictures of any dimension that are not constant; all extents, centres, non-zero widths, argument lists and states", "why_tests_cant": "the values are real numbers and the claim is for every picture and every width", "anchors": ["main.h: normalize", "main.h: gaussian_figure_2d", "image_operations.h: normalize", "image_operations.h: gaussianFigure2D"]}
{"id": "C162", "title": "multiply multiplies every value, and a policy changes what it stores", "statement": "Without a policy the command multiply stores, for a picture of any type, the picture of doubles whose values are the products. With a policy a grey picture keeps its type, integers being cut off at the ends of the type, and a picture with colours ends the program. A missing factor, or one that is not a number, changes nothing. So a policy is not only a way of computing the same result.", "quantifier": "all pictures of doubles, integers and colours, all factors, sessions, arguments and orders in which a policy may visit the pixels", "why_tests_cant": "All values and all orders of evaluation; the end of the program depends on the type, not on values a test happens to use.", "anchors": ["main.h: handlers::multiply", "image_operations.h: multiplies", "image_operations.h: pixelwise_transform"]}
{"id": "C163", "title": "In a session of grey pictures of doubles the optimiser changes nothing the user can see", "statement": "With the commands copy, dct2, idct2 and multiply as the program has them, and any further regular commands, a line has the same effect on the user's variables and files whether or not its pipeline is optimised, when every picture in the session is a grey picture of doubles. With integers dct2 and idct2 are replaced by a copy that keeps the integers, and with colours multiply par by one is replaced by a copy where the command ends the program.", "quantifier": "all lines, sessions of grey pictures of doubles of any size, and registries of further commands", "why_tests_cant": "All lines and sessions; the inverse transforms are compared exactly.", "anchors": ["main.h: PeepholeOptimizer::optimize", "main.h: handlers::dct2", "main.h: handlers::idct2", "main.h: handlers::multiply", "main.cpp: run_interactive_mode"]}
{"id": "C164", "title": "bicubic_resize interpolates the stored picture", "statement": "The command bicubic_resize stores a picture of the same kind with the extents given; each channel of each pixel is the sum of the sixteen samples around its position, weighted by the cubic kernel of the two distances, with the border continued. A pixel on a sample keeps its value, an even area stays even, the own size keeps the picture, and a policy makes no difference. A missing argument or an extent that is no number leaves the session as it was. For integer pixels (grey or colour) the statement is false: nothing is interpolated, each pixel is the sample before its position.", "quantifier": "all sessions, arguments, pictures, extents and orders of the parallel loop", "why_tests_cant": "All picture sizes, target sizes and values, and every order in which the pixels are written; the weights are compared exactly.", "anchors": ["main.h: handlers::bicubic_resize", "image_operations.h: copyResizeBicubic", "image_operations.h: bicubicPolate", "image_operations.h: cubic_interpolate"]}
{"id": "C165", "title": "sift_generate_octave stores the differences of Gaussians", "statement": "For a grey picture of doubles or bytes the command sift_generate_octave stores in the variable levels - 1 pictures: the differences of neighbouring levels, level j being the picture smoothed with the deviation sigma k^j; missing arguments have the values 5, 1.6 and the root of two. Fewer than two levels give an empty container. A result that is not a variable, a number that cannot be read, a colour picture or other integers leave the session as it was. The command is also expected never to end the program; that is false for every picture with an extent below 28 with the defaults.", "quantifier": "all sessions, arguments, grey pictures, numbers of levels, non-zero deviations, factors and orders of the parallel loops", "why_tests_cant": "All pictures and parameters; the smoothed values are compared exactly.", "anchors": ["main.cpp: handlers::sift_generate_octave", "image_operations.h: SIFT_impl::generate_octave", "image_operations.h: difference_of_gaussian"]}
{"id": "C166", "title": "get_sift_potential_keypoint stores the keypoints of a grey picture", "statement": "With the default levels and deviations, for a grey picture of doubles or bytes whose octaves all have at least 28 x 28 pixels, the command searches every triple of differences of every octave (resampled by bicubic or Lanczos interpolation), maps each refined location to the picture and stores the points; without a policy in the order of the octaves and scales. An even picture gets an empty list. Missing arguments, a result that is not a variable, a number that cannot be read, an unknown resampling name, a colour picture or other integers leave the session as it was. The command is also expected never to end the program; that is false for every picture with an octave below 28 pixels, which with the default of four octaves is every picture with an extent below 224.", "quantifier": "all sessions, arguments, policies, grey pictures, numbers of octaves, thresholds and orders of the parallel loops", "why_tests_cant": "All pictures, sizes and parameters; the thread schedules and the sizes at which the program ends cannot be enumerated by tests.", "anchors": ["main.h: handlers::get_sift_potential_keypoint", "image_operations.h: SIFT_impl::get_potential_keypoint", "image_operations.h: SIFT_impl::find_local_extrema", "image_operations.h: copyResizeBicubic", "image_operations.h: lanczos_resample"]}
{"id": "C167", "title": "The warp on the GPU reads the source at the image of each pixel", "statement": "When every call of the CUDA runtime succeeds, warping a picture of bytes by a 3 x 3 matrix gives, at every pixel of the canvas, the source at the position that the matrix itself (not its inverse) takes the pixel to: bicubic in the interior of the source, the nearest pixel within a pixel or two of its edges, and 0 off the source or where the absolute value of the denominator is at most 1e-6. The result does not depend on the order in which the threads run, no thread writes outside the canvas, and a colour picture is warped plane by plane.", "quantifier": "all matrices, all non-empty sources and canvases of fewer than 2^31 pixels with at most 1048560 rows, all orders of the threads", "why_tests_cant": "A continuum of positions, all sizes, and every schedule of the threads of a grid; a GPU is needed to run a single case.", "anchors": ["image_operations_cuda.cu: warp_perspective_cuda_impl, warp_perspective_kernel, BicubicInterpolatorDevice, cubic_kernel_device", "image_operations_cuda.h: warp_perspective_cuda"]}
{"id": "C168", "title": "The warp on the GPU reports every failure and leaks no device memory", "statement": "Whatever the calls of the CUDA runtime answer, no device buffer stays allocated when the warp of a picture ends, provided that releasing memory works while an error is handled. A result means that every call succeeded, and it has the size that was asked for; if a call fails on valid input the warp throws std::runtime_error. An empty canvas or one of more than 1048560 rows is refused that way. When the regular releases work, each buffer is released exactly once; when the second of them fails, both buffers are handed to cudaFree again.", "quantifier": "all answers of all calls of the runtime, all pictures, matrices and canvas sizes", "why_tests_cant": "Failures of a driver cannot be provoked one by one, and leaks have to be excluded on every path.", "anchors": ["image_operations_cuda.cu: warp_perspective_cuda_impl, CUDA_CHECK", "image_operations_cuda.h: warp_perspective_cuda"]}
{"id": "C169", "title": "The GPU and the CPU give the same warped picture", "statement": "For a matrix and its inverse, the warp on the GPU and the one on the CPU give the same pixel wherever the source position is a pixel of the source, lies in the interior of the source, or is off the source, and where both denominators are too small. That they agree everywhere is false: between pixels near an edge the device takes the nearest pixel and the CPU interpolates, and a matrix scaled by 1e-7 gives a black picture on the device although it describes the same map.", "quantifier": "all pictures of bytes, all invertible matrices, all canvas sizes", "why_tests_cant": "A continuum of positions and matrices; the disagreements are confined to thin borders and tiny scales.", "anchors": ["image_operations_cuda.cu: warp_perspective_kernel, BicubicInterpolatorDevice", "image_operations.h: warp_perspective"]}
{"id": "C170", "title": "Stitching on the GPU places both pictures on one canvas", "statement": "With an invertible homography, stitching two colour pictures on the GPU gives a canvas that holds the first picture and every corner of the second one carried over; where both pictures have content they are blended by the distance from the left edge of the first, elsewhere the one with content is shown. The second picture is read at f(x, y) + t, where f is the homography and t the shift of the canvas; that it is read at f((x, y) - t), so that it appears where the homography puts it, is false as soon as the canvas is shifted. An empty or singular homography gives an empty picture.", "quantifier": "all pictures, homographies and canvas sizes within the limits of the warp, all orders of the threads", "why_tests_cant": "All homographies and sizes; a GPU is needed to run a single case.", "anchors": ["image_operations_cuda.h: create_stitched_image_cuda", "image_operations_cuda.cu: warp_perspective_cuda_impl"]}
{"id": "C171", "title": "dct3 stores the cosine coefficients of a stack of pictures", "statement": "For a std::vector or std::deque of pictures of doubles of one size, the command dct3 stores a std::vector with the coefficients of the three-dimensional cosine transform, from which idct3_one_plane gives back every picture; an execution policy changes nothing. A std::list, pictures of integers, plain pictures (also from files), unknown variables and missing arguments leave the session as it was.", "quantifier": "all sessions, arguments, stacks of any number of pictures of any size, all orders of the parallel loops", "why_tests_cant": "All sizes, depths and pixel values over the reals; the inverse is an identity over infinitely many volumes.", "anchors": ["main.h: handlers::dct3", "main.h: MetaTransformHandler", "image_operations.h: dct3, dct3_one_plane"]}
{"id": "C172", "title": "hsv2rgb stores the RGB picture of an HSV picture", "statement": "For a picture of HSV pixels with hues from 0 below 360, saturations from 0 to 1 and values from 0 below 256, of any number of dimensions, the command stores the picture of RGB pixels given by the hexcone formula, cut to whole numbers, with and without an execution policy. A pixel with a value of 256 or more has no defined result. Every other kind of data, unknown variables and missing arguments leave the session as it was.", "quantifier": "all sessions, arguments, policies, pictures and orders of the parallel loops", "why_tests_cant": "A continuum of colours, all sizes and schedules.", "anchors": ["main.h: handlers::hsv2rgb", "image_operations.h: hsv2rgb, pixelwise_transform"]}
{"id": "C173", "title": "to_complex turns every number v into v + 0i", "statement": "For a picture of doubles, of HSV pixels or of RGB_DOUBLE pixels the command stores the complex picture whose numbers have the given real parts and the imaginary part 0; complex data is stored as it is. bool pictures, containers, unknown variables and missing arguments leave the session as it was. That every picture of numbers is converted is false: for integers and for RGB pixels the result has a type that the command does not know, and nothing is stored.", "quantifier": "all sessions, arguments, policies, pictures of any number of dimensions, orders of the parallel loops", "why_tests_cant": "All pictures, types and schedules.", "anchors": ["main.cpp: handlers::to_complex", "main.h: MetaTransformHandler, master_data_types", "image_operations.h: to_complex"]}
{"id": "C174", "title": "estimate_gaussian_params_2d stores one set of parameters", "statement": "For a non-empty picture of doubles or integers and a variable for the result, the command has one outcome, whatever the policy and the order in which sums are taken: it stores a set of parameters with deviations of at least 1e-6 and a correlation of at most 0.999 in absolute value. Asking for more iterations (1000 by default) never gives a worse fit, and parameters whose figure is the picture are kept. Without iterations the centre is the first brightest pixel and the amplitude its value. A result that is not a variable, numbers that cannot be read, bool pictures, pictures that are not two-dimensional, other kinds of data, unknown variables and missing arguments leave the session as it was.", "quantifier": "all sessions, arguments, pictures, numbers of iterations, tolerances and orders of the reductions", "why_tests_cant": "The orders of parallel reductions cannot be enumerated, and the comparison is between all pairs of runs.", "anchors": ["main.h: handlers::estimate_gaussian_params_2d", "main.h: MetaScalarHandler", "image_operations.h: estimate_gaussian_parameters_2d"]}
{"id": "C175", "title": "The squared distance of two ranges is the sum of the squared differences in the type of the elements, for every order of a parallel reduction", "statement": "squared_euclidean_distance of two ranges of the same length, without a policy and with any execution policy, gives the sum of the squares of the differences when that sum fits the type of the elements; on bytes it gives the sum modulo 256, on unsigned types of n >= 32 bits the sum modulo 2^n, and on floating elements the sum in exact arithmetic. With a policy every order and grouping of the partial sums gives this one result. Ranges of different lengths give std::runtime_error. The claim that the result is always the distance is false: two bytes 16 apart have distance 0, and on 16 bit unsigned values 50000 apart the square overflows an int.", "quantifier": "all ranges, all integral types of at least two bits, all orders and groupings of the reduction", "why_tests_cant": "the order of a parallel reduction cannot be enumerated, and the narrowing shows only for sums beyond the type", "anchors": ["image_operations.h:squared_euclidean_distance"]}
{"id": "C176", "title": "Sorting an image has one result, and the order of HSV colours is a strict total order", "statement": "For a total order on the elements, sort of an image has exactly one result: the pixels of the image, each as often as in the image, in increasing order; its first element is what min gives and its last what max gives. The comparison of HSV colours (the key of a std::map) is irreflexive, transitive, asymmetric and total on finite channels.", "quantifier": "all images, all total orders, all finite colours", "why_tests_cant": "the laws range over all triples of colours and all arrangements of the pixels", "anchors": ["image_operations.h:sort", "base_types.h:HSV"]}
{"id": "C177", "title": "A command given on the command line does what the same words do as a line of the session", "statement": "For a command word other than exit and quit and arguments without blanks and bars, running the program with these words changes the workspace and the files exactly as the line of these words in the interactive session, unless the command is a multiplication by one with at least three arguments, which the session replaces by a copy. A command that is not registered changes nothing. For arguments with blanks the two differ: the claim for all arguments is false.", "quantifier": "all registries, commands, arguments and states", "why_tests_cant": "an agreement of two ways to run a command, for all commands and arguments", "anchors": ["main.cpp:main", "main.cpp:run_interactive_mode"]}
{"id": "C178", "title": "Blockwise cosine transform and back keeps every value it keeps", "statement": "Taking a plane apart into blocks of about N1 by N2 pixels, transforming each block by dct2 and back by idct2, and putting the blocks together, as the command test does with 8 by 8, gives in exact arithmetic the values of the plane at every pixel of the result; where the extents are multiples of N1 and N2 the plane itself comes back. The extents are not always kept: 23 columns become 22; and a plane narrower than a block ends in a division by zero.", "quantifier": "all planes of all extents, all block sizes, all orders of the parallel loops", "why_tests_cant": "all extents relative to the block size, and exact equality of a transform and its inverse", "anchors": ["main.cpp:run_legacy_tests", "image_operations.h:split", "image_operations.h:concat", "image_operations.h:dct2", "image_operations.h:idct2"]}
{"id": "C179", "title": "Colour pictures are turned, seen through the lens and smoothed channel by channel, consistently", "statement": "rotate_detail_shear_transformation of a colour or multi-channel picture gives a picture of the size of the turned rectangle rounded up in which all channels of a pixel are the interpolated values of their channels at one and the same place, the place that the turn carries to that pixel; rotate_detail_shear_transformation_degree by 0, 90, 180, 270 and 360 degrees moves grey values and whole colours exactly, without changing any; gaussian_fisheye of a colour picture shows, for every pixel, one whole colour of the source (or black), the one seen at the inverse position, and an integral radius means the same as that real number; bilateral_filter of a colour picture keeps every channel within the range of that channel. Pictures that are not two-dimensional are refused with an exception.", "quantifier": "for all sizes, colours, real angles, interpolators exact at the pixels, lens radii up to half the extents, kernels that are nonnegative and positive at zero, window sizes and execution orders", "why_tests_cant": "the channels are computed by separate tasks and recombined; that they agree on size and source position concerns all sizes and angles", "anchors": ["image_operations.h: rotate_detail_shear_transformation", "image_operations.h: rotate_detail_shear_transformation_degree", "image_operations.h: gaussian_fisheye", "image_operations.h: bilateral_filter", "image_operations.h: apply_each"]}
{"id": "C180", "title": "help lists every command once, with the description registered first", "statement": "After any registrations, by the program and by plugins, help prints between a heading and the tips one line for every command and no other, in byte order of the names, with the description that was registered first; for names without blanks and descriptions of one line the text tells which commands there are and what they are described as. When names are different the order of the registrations does not matter, so the list is the same in whatever order the plugin libraries of a directory are found, and each command of the program and of the three plugins is reached by its name. An exception in a command is reported with the name of the command and what was done before it stays; an unknown name is reported with the list and changes nothing. The descriptions stand below each other exactly for names of at most 15 characters.", "quantifier": "all sequences of registrations, all handlers and states, all orders of plugin libraries, all command words and arguments", "why_tests_cant": "Any number of plugins in any order, any names.", "anchors": ["main.h: CommandRegistry::list_commands, execute, register_command; handlers::help", "main.cpp: main, command_registration", "plugin_math.cpp, plugin_math_add.cpp, plugin_replace.cpp: register_plugin_commands"]}
{"id": "C181", "title": "A pipeline puts its variables where each command looks for them", "statement": "For every command of the program and of the plugins that takes part in pipelines, a stage of a line finds the variable of the stage before at the place where its handler looks for the input and the variable of the stage after at the place where it looks for the output, with the user's words around them in their order; a policy word does not disturb this if it comes after the words that stand in front of the output. zeros, ones, grid and gaussian_figure_2d look for their output first and get the variable second; copy, constructRGB and transform_container get none.", "quantifier": "all lines of any number of stages, all commands of the table, all arguments, all handlers", "why_tests_cant": "All commands in all positions of all pipelines with all arguments.", "anchors": ["main.cpp: run_interactive_mode, main, command_registration", "main.h: IOSchema, the handlers and their usage texts"]}
{"id": "C182", "title": "The functions that ask for the kind of a number tell NaN, the infinities, zeros, subnormal and normal numbers apart, channel by channel", "statement": "For every double (every pattern of 64 bits) isnan, isinf, isfinite and isnormal are true exactly when it is NaN, an infinity, a real number, a real number of magnitude at least 2^-1022; fpclassify gives exactly one of five answers and each exactly for its kind. For every real number other than zero ilogb gives the e with 2^e <= |x| < 2^(e+1), subnormal numbers included, and logb the same number as a double; zero, the infinities and NaN give the special answers. signbit is true exactly for the negative numbers and minus infinity; a zero has both answers. For a pixel of any number of channels the answer in each channel is that of the channel, with every execution policy; channels of an integral type are converted exactly.", "quantifier": "all 2^64 doubles, all pixels, all schedules of the channels", "why_tests_cant": "2^64 patterns, and the bounds of ilogb are inequalities between real numbers", "anchors": ["basic_functions.h:ilogb", "basic_functions.h:logb", "basic_functions.h:fpclassify", "basic_functions.h:isfinite", "basic_functions.h:isinf", "basic_functions.h:isnan", "basic_functions.h:isnormal", "basic_functions.h:signbit"]}
{"id": "C183", "title": "Images of doubles and HSV colours compare by value, with NaN equal to nothing", "statement": "Two images are equal exactly when their extents are equal and every two pixels at the same place are; != is the negation. For doubles, equal means: the same number or the same infinity (so the two zeros are equal and an image of one equals that of the other though signbit tells them apart), and NaN is equal to nothing: an image of doubles is equal to itself exactly when no pixel is NaN, and nan(sizes) equals itself only when it has no pixels. zeros, ones and nan have the given extents and 0, 1 and NaN everywhere; zeros of an empty range of extents is refused. The order of HSV colours is a strict order whose ties are exactly the equal colours, for all colours, so it can be the key of a std::map.", "quantifier": "all images of any extents, all doubles, all colours", "why_tests_cant": "all patterns of bits in all pixels; the laws of the order range over all triples of colours", "anchors": ["image.h:operator==", "image_operations.h:zeros", "image_operations.h:ones", "image_operations.h:nan", "base_types.h:HSV"]}
{"id": "C184", "title": "Sum, mean, += and -= of images of doubles with rounding", "statement": "Every addition of two doubles has a result, which is one number whatever the order of the operands and, if finite, the double nearest to the exact sum. If all pixels are whole numbers whose magnitudes add up to at most 2^53 (for instance bytes, up to 2^45 pixels), sum gives the exact sum with every order and grouping, so with every policy, and mean gives the double nearest to the exact mean, which lies between the least and the greatest pixel. sum of any image has a result; a NaN pixel makes it NaN; and if no pixel is negative it is not below any pixel. += and -= refuse images of other extents and otherwise keep the extents and round every pixel to the nearest double; adding and subtracting an image of whole numbers of magnitude at most 2^52 to such an image gives the first back. In general the sum does not depend on the order, the mean lies between the least and the greatest pixel and is finite for finite pixels, and -= undoes +=: these four are false.", "quantifier": "all images of any extents and all doubles; all orders and groupings of the sum", "why_tests_cant": "rounding depends on the bits of all pixels and on the order a parallel reduction happens to take", "anchors": ["image_operations.h:sum", "image_operations.h:mean", "image.h:operator+=", "image.h:operator-="]}
{"id": "C185", "title": "Colours to HSV and back with rounded arithmetic", "statement": "rgb2hsv of every colour of bytes has a result with rounded doubles: the argument of the arc cosine never leaves its domain, the hue is a double from 0 to below 360 and within 2^-26 degrees of the direction of the colour in the plane of hues (the angle with cosine (2 r - g - b) / 2 w and sine sqrt 3 (g - b) / 2 w, w^2 = r^2 + g^2 + b^2 - r g - g b - b r), the saturation is from 0 to 1 and the value is the largest channel exactly; the value times one minus the saturation is within 255 / 2^49 of the smallest channel. hsv2rgb with long doubles has a result for every double hue from 0 to below 360, saturation from 0 to 1 and value from 0 to 255: three bytes, each the exact channel of the hexcone cut to a byte after an error of at most 2^-40, and one of them is the value itself if that is whole. So a colour that goes there and back keeps its largest channel, and its smallest channel stays or becomes one less. Greys come back exactly. Colours whose green and blue are equal and smaller than the red come back with the red, and with green and blue or one less; exactly if the red is a power of two. That they always come back exactly is false: 3, 2, 2 always becomes 3, 1, 1.", "quantifier": "all colours, all hues, saturations and values in range, all ways of rounding ties between long doubles and all arc cosines within 2^-50", "why_tests_cant": "there are 2^24 colours and 2^60 hues, and whether a channel is lost depends on the last bit of a rounded quotient", "anchors": ["image_operations.h:rgb2hsv", "image_operations.h:hsv2rgb"]}
{"id": "C186", "title": "Error bounds for sum, mean, += and -= of images of doubles", "statement": "For every image of n finite doubles, n at most 2^52, and every order and grouping of the additions, so every policy: a finite sum is within n / 2^52 times the sum of the magnitudes of the pixels of the exact sum (so within n / 2^52 of it relatively, if no pixel is negative), two runs differ by at most twice that, and the sum is finite if the magnitudes add up to at most 2^1022. A finite mean is within 2^-51 times the sum of the magnitudes, plus the smallest double, of the exact mean. += followed by -= of the same image gives every pixel back to within 3 / 2^53 of the magnitudes of the two pixels, if all values are finite.", "quantifier": "all images of finite doubles of any extents with at most 2^52 pixels; all orders and groupings of the sum", "why_tests_cant": "the error depends on all bits of all pixels and on the order a parallel reduction takes; a test sees one order", "anchors": ["image_operations.h:sum", "image_operations.h:mean", "image.h:operator+=", "image.h:operator-="]}
{"id": "C187", "title": "normalize of images of doubles, with rounding", "statement": "For every image of finite doubles that are not all equal and whose range (greatest minus least) does not overflow: normalize gives an image of the same extents; every result is a double from 0 to 1; the least pixels become exactly 0 and the greatest exactly 1; a pixel not above another does not come out above it; every result is within 2^-51 of the exact quotient, relatively, plus the smallest double; normalising again changes no value. Beyond that: for every image of doubles with at least one pixel there is a result; an image of one finite value becomes all NaN; if the range overflows, a pixel becomes 0, or NaN if its distance from the least overflows (so the greatest do); a NaN pixel becomes NaN, and a NaN first pixel makes all NaN. Refuted: that different pixels stay different, and that finite pixels that differ always give numbers from 0 to 1.", "quantifier": "all images of doubles of any extents; all bit patterns of the pixels", "why_tests_cant": "exactness at the ends and the order depend on how three rounded operations combine for every pair of pixels; a test tries a few", "anchors": ["image_operations.h:normalize", "image_operations.h:subtract", "image_operations.h:divides", "image_operations.h:min", "image_operations.h:max"]}
{"id": "C188", "title": "manhattan_distance of images of doubles, with rounding", "statement": "For all images of finite doubles of equal extents the distance is a number that is not negative or positive infinity, and it is 0 exactly if the images have the same values: no difference is rounded away. It does not depend on which image comes first. A finite distance of images of n pixels, n at most 2^52, is within (n + 1) / 2^52 of the exact distance, relatively. For all images of doubles there is a result; images of different extents throw a runtime_error, and only they; a NaN pixel, or a pixel that is the same infinity in both images, makes the distance NaN. Refuted: that every image without NaN is at distance 0 from itself (an infinite pixel), and the triangle inequality.", "quantifier": "all pairs of images of doubles of any extents; all bit patterns of the pixels; the error bound for at most 2^52 pixels", "why_tests_cant": "whether a difference or a partial sum is rounded to nothing depends on all bits of all pixels; a test tries a few", "anchors": ["image_operations.h:manhattan_distance", "image_operations.h:difference", "basic_functions.h:recursive_reduce"]}
{"id": "C189", "title": "Euclidean distances of ranges of doubles, with rounding", "statement": "squared_euclidean_distance and euclidean_distance of two ranges of doubles, without a policy: there is always a result; ranges of different lengths throw a runtime_error, and only they; exchanging the ranges changes nothing. For finite numbers both are numbers that are not negative or positive infinity, both are 0 for equal ranges, and one is 0 exactly if the other is; if numbers that differ differ by at least 2^-537, they are 0 for equal ranges only. If the squared distance of two ranges of n <= 2^52 finite numbers is finite, it is within (n + 4) * 2^-52 of the exact one, relatively, plus n * 2^-1073. For whole numbers whose squared distance is at most 2^53 the squared distance is exact, the distance is within 2^-53 of its root, relatively (and one smallest double), and exact if the squared distance is the square of a whole number. Refuted: that different numbers are never at distance 0 (the square underflows), and that two numbers whose difference is a finite double are at a finite distance (the square overflows).", "quantifier": "all pairs of ranges of doubles of any lengths; all bit patterns", "why_tests_cant": "underflow and overflow of the squares depend on the magnitudes of all differences, exactness on every partial sum; a test tries a few", "anchors": ["image_operations.h:squared_euclidean_distance", "image_operations.h:euclidean_distance"]}
