p("C78","Pickle round trip",
  "load_python_list(save_python_list(path, v)) returns v, for every path and file system, provided pickle itself round-trips on v.",
  "every path, file system, value", "All states.", LOSA+": save_python_list, load_python_list")
p("C79","Opened stream file",
  "When open_hdf_stream succeeds, the file at the returned path holds under key_path a dataset of the requested type and shape filled with zeros, and holds every dataset given in options under its key; none of the option keys contains key_path. It holds no other dataset.",
  "every path, file system, shape, key and options", "All option lists and states.", LOSA+": open_hdf_stream")
p("C80","Typical dot size and spacing are medians",
  "calc_size_distance returns the median of the dot sizes (sums of pixel values per component of the border-cleared region) and the median over the dots of the distance to the nearest other dot centre; with a single dot it raises IndexError.",
  "every image, ratio, labelling with at least two dots", "Quantifies over all images and labellings.", PREP+": calc_size_distance")
p("C81","Slope of collinear dots is exact",
  "If the dot centres of the region lie on one line, calc_hor_slope (calc_ver_slope) returns either the slope of that line or the tangent of the coarse angle in -30..30 degrees that maximises the Radon projection, and it returns the exact slope whenever every dot has a neighbour that stays within the search tolerance of the coarse line.",
  "every image whose dots are collinear, every Radon routine, sort and line fit", "All images and oracles.", PREP+": calc_hor_slope, calc_ver_slope")
p("C82","Dot centres of a binary image",
  "get_points_dot_pattern without binarisation returns one point per component, in label order, namely its centre of mass, which lies inside the bounding box of the component; it succeeds exactly when the image has values in [0,1] with a 0 and a 1 among them, and otherwise raises ValueError.",
  "every image and labelling", "All images.", PREP+": get_points_dot_pattern")
PROC="discorpy/proc/processing.py"
p("C83","Calibration with two or three lines in a direction computes with NaN",
  "When one direction has only two or three lines, the undistorted intercepts used by calc_coef_backward and calc_coef_forward (without optimisation) are NaN in both directions, because the line distance is the mean of an empty array; no exception is raised at that point.",
  "every set of lines with 2 or 3 lines in a direction, every fit", "All inputs, in IEEE arithmetic.", PROC+": _calc_undistor_intercept, calc_coef_backward, calc_coef_forward")
p("C84","A grid without perspective distortion stays as it is",
  "If the lines are two families of equidistant parallel lines at right angles to each other, generate_undistorted_perspective_lines returns the same points as regenerate_grid_points_linear for every distance option (with equal_dist=True when the two distances agree, with a float scale when it is 1 or optimising); generate_source_target_perspective_points returns equal source and target points and calc_perspective_coefficients the identity coefficients, in both directions.",
  "every orthogonal equidistant grid of at least 2 x 2 lines and every option", "All grids, rotations and options.", PROC+": generate_undistorted_perspective_lines, generate_source_target_perspective_points, calc_perspective_coefficients")
p("C85","Vanishing-point methods find the centre of ideal distorted grids",
  "On lines which are exactly the parabolas of a radially distorted grid about (xc, yc), find_center_based_vanishing_points and find_center_based_vanishing_points_iteration return (xc, yc), for barrel distortion through the vanishing points (two lines on each side of the centre) and for pincushion distortion through find_cod_bailey. For lines of any shape, the result is the point where the straight line fitted to the vanishing points of the horizontal lines meets the one of the vertical lines; the vanishing points are the intersections of the fitted parabolas, paired from the flattest on by opposite curvature (first function) or each with the flattest one (start of the iterative one); with two or fewer vanishing points in a direction it is the result of find_cod_bailey. Each iteration corrects the perspective effect about the centre found so far and adds the centre found from the corrected lines moved there.",
  "every centre, distortion strength, grid, iteration count and method", "All grids; external fits and root finding.", PROC+": find_center_based_vanishing_points, find_center_based_vanishing_points_iteration")
p("C86","Perspective correction leaves a grid without perspective distortion unchanged",
  "On lines which are exactly the parabolas of a radially distorted grid about (xc, yc), with lines on both sides of the centre in both directions, correct_perspective_effect with that centre returns the lines unchanged for every method and scale (a float scale being 1).",
  "every centre, distortion strength, grid, method and scale", "All grids; external fits.", PROC+": correct_perspective_effect")
p("C87","Parabola grid with perspective correction is regular",
  "regenerate_grid_points_parabola(perspective=True) returns points on regular parabolas: the fitted ones about the centre of distortion, with one common slope (of opposite sign for the vertical lines) and with the intercepts and leading coefficients rescaled so that the line distances near the centre agree in both directions; on an ideal radially distorted grid with one line distance the result equals the one without perspective correction about the centre.",
  "every set of lines, solver outcome", "External solver; all inputs.", PROC+": regenerate_grid_points_parabola, _generate_non_perspective_parabola_coef")
p("C88","Optimised line distances do not depend on the scale option",
  "With optimizing=True, generate_undistorted_perspective_lines returns the same lines for scale='mean', 'median' and every float (also for 'max' and 'min' when equal_dist=False): the option only gives the start value of a strictly convex minimisation.",
  "every set of lines with at least two per direction, every pair of options", "All inputs and options.", PROC+": generate_undistorted_perspective_lines, _calc_undistor_intercept_perspective")
p("C92","Local extrema do not depend on the brightness scale",
  "Multiplying a profile by a positive factor does not change what get_local_extrema_points returns (norm=False, denoise=False, any option, with or without sub-pixel refinement). Adding an offset does change it: the depth is relative to the level.",
  "every profile, factor, radius and sensitivity", "All profiles and factors.", LINE+": get_local_extrema_points")
p("C93","Background normalisation of profiles",
  "With norm=True each sample is divided by the value, at its rank, of the line fitted to the middle half of the sorted samples. A profile whose samples in some order are evenly spaced and non-zero (constants, ramps, and every rearrangement of a ramp) becomes 1 everywhere: no extremum is reported, however deep its dips. For distinct samples and a background line without zero the result does not depend on the brightness scale.",
  "every profile, radius and sensitivity", "All profiles.", LINE+": get_local_extrema_points")
p("C91","Cross points lie on the generated lines, slightly before the feature",
  "The points returned by get_cross_points_hor_lines / _ver_lines are exactly: for each generated line (from the first accepted index plus the clipped offset, in steps of ratio*distance) and each local maximum found on its profile, one point; it satisfies x = index + slope*y (hor_lines) or y = index + slope*x (ver_lines) and lies in the image up to one pixel. A maximum at sample p is reported at a distance from the start of the line that is too short by up to sqrt(2)*p/(n-1): with slope 0, what is seen at column p + p/(n-1) is reported at column p (a line in column 16 of a 21-column image at 15).",
  "every image, slope, spacing, offset and option, exact arithmetic", "Real-valued geometry for all sizes and slopes.", LINE+": get_cross_points_hor_lines, get_cross_points_ver_lines, get_tilted_profile")
p("C89","Slope and distance of the lines",
  "calc_slope_distance_hor_lines / _ver_lines return the tangent of the angle (measured from 90 degrees for horizontal lines) whose projection of the central disc (radius 92% of half the square region) has the largest maximum among a coarse grid of whole degrees and then a fine grid of 0.05 degrees within one degree of the coarse winner, the smallest such angle on ties; the slope never exceeds tan(search_range + 1 degree). The distance is the median (more than three lines) or mean of the gaps of the maxima of that projection, lies between the smallest and the largest gap and equals the spacing of equidistant lines. With bgr='bright' a brightness offset changes nothing. If fewer than two lines are found no error is raised and the distance is NaN; an image too small for the ratio raises ValueError.",
  "every image, ratio, search range and option, exact arithmetic (NaN claim in doubles)", "All images; external projection.", LINE+": calc_slope_distance_hor_lines, calc_slope_distance_ver_lines")
p("C90","Chessboard images become line patterns",
  "convert_chessboard_to_linepattern returns an image of the same shape whose pixels are the mean absolute central differences (inverted for a bright background), those of the outer border replicated from inside, divided by their average: values are non-negative and average to 1 unless the image has no edges. The result does not change under any change of brightness and contrast, including exchanging black and white. Images not larger than the border raise ValueError; a uniform image gives NaN everywhere in doubles, without an error.",
  "every image, smoothing width and background", "All images and contrasts.", LINE+": convert_chessboard_to_linepattern")
p("C95","Warning about missing lines",
  "The calibration functions warn about missing lines exactly when, among the horizontal or among the vertical lines, the distance of some neighbours differs from the parabola fitted to all distances by more than the fraction threshold. Up to four lines in a direction never cause it, and one line missing next to the border of seven is not noticed with the default threshold, while one missing in the middle is.",
  "every set of lines, centre, threshold and least-squares routine", "All inputs; external fit.", PROC+": calc_coef_backward, calc_coef_forward, _calc_undistor_intercept, _check_missing_lines")
p("C94","Rows and columns are exchangeable",
  "get_tilted_profile along a row tilted by an angle returns what it returns for the transposed image along the column tilted by the opposite angle, with the two coordinates exchanged. get_cross_points_hor_lines on the transposed image returns the points of get_cross_points_ver_lines on the image for the same slope, coordinates exchanged, if width*slope is a whole number and the offset is within the smaller of the two limits. Otherwise the accepted lines may differ: a line accepted in one orientation can raise ValueError in the other.",
  "every image, index, angle, slope and option, exact arithmetic; filters and interpolation that treat rows and columns alike", "All images and angles.", LINE+": get_tilted_profile, _calc_index_range, get_cross_points_hor_lines, get_cross_points_ver_lines")
p("C96","Fourier background estimate",
  "The background used by normalization_fft is, at every pixel, a fixed weighted sum of the pixels of the padded image; the weights are those of a Gaussian frequency window and depend only on the offset. It has the shape of the image, is linear in the image and commutes with transposition. A uniform image with even height and width gives a uniform background whatever sigma and padding, and normalization_fft returns it unchanged; scaling the image scales the result. With an odd width and no padding a uniform image is returned non-uniform.",
  "every image, sigma, padding width and copying padding mode; exact arithmetic and exact discrete Fourier transform", "Finite sums over all sizes; real exponentials.", PREP+": _make_window, _apply_fft_filter, normalization_fft")
p("C97","Calibrated coefficients are the best polynomial, and exact where one exists",
  "calc_coef_forward returns the polynomial F, among those with max(1,num_fact) coefficients, with the smallest sum over all dots of the squared deviation of F(r) from u/(a*t^2+c), where r is the distance of the dot from the centre, t its coordinate along its line, a and c belong to the parabola fitted to the line and u is its undistorted position; dots of an undistorted line through the centre are left out. calc_coef_backward does so for the inverse factors at the undistorted distances, and calc_coef_backward_from_forward for the inverse of F on the dots. Consequently, if the lines are parabolas symmetric about the centre and some polynomial moves every dot onto its undistorted line, so does the result (and it is that polynomial when there are enough distinct distances): unwarp_line_forward with it gives exactly straight lines at the undistorted positions; for the backward model the straight lines are mapped exactly onto the measured ones.",
  "every set of lines, centre, number of coefficients, option, and every exact least-squares routine", "All grids and polynomials; external least-squares routine.", PROC+": calc_coef_backward, calc_coef_forward, calc_coef_backward_from_forward; "+POST+": unwarp_line_forward")
p("C98","Calibration does not depend on the origin, the pixel size or the names of the axes",
  "Moving all dots and the given centre by the same amount leaves the results of calc_coef_forward, calc_coef_backward and calc_coef_backward_from_forward unchanged and moves the result of find_cod_fine by that amount. Multiplying all coordinates and the centre by s > 0 multiplies the undistorted positions by s, leaves the missing-line warning unchanged and divides coefficient number i by s^i, so that the corrected points are multiplied by s. Exchanging x and y (and horizontal and vertical lines) exchanges the undistorted positions and leaves the warning and the coefficients unchanged. find_cod_coarse, however, does not move along with the dots.",
  "every set of lines, centre, shift, positive scale, number of coefficients and option; at least as many distinct distances as coefficients where coefficients are compared", "All grids, shifts and scales; external least-squares routine.", PROC+": calc_coef_backward, calc_coef_forward, calc_coef_backward_from_forward, find_cod_fine, find_cod_coarse")
p("C99","Rows and columns are recovered whatever the order of the dots",
  "If the dots form rows in which neighbours are closer than num_dot_miss*dot_dist and within ratio*dot_dist of the given slope, no two dots of different rows pass that test for each other, and no row is shorter than the fraction accepted_ratio of the longest, then group_dots_hor_lines returns exactly these rows, ordered by height, whatever the order in which the dots are given; group_dots_ver_lines does so for columns. A sufficient condition is that every dot is within e of a line of the given slope, 2e is below the tolerance and the lines are apart by at least the tolerance plus 2e. On an undistorted grid with at least four rows and columns both groupings succeed, find_cod_coarse returns the middle of the second cell (not of the grid) and calc_coef_backward / calc_coef_forward return the identity, 1 followed by zeros.",
  "every order of the dots, number of rows and dots per row, slope, spacing and tolerances; every sorting routine, exact fits", "All permutations of all grids.", PREP+": group_dots_hor_lines, group_dots_ver_lines; "+PROC+": find_cod_coarse, calc_coef_backward, calc_coef_forward")
p("C100","A generated dot pattern calibrates to the identity",
  "The points found by get_points_dot_pattern in 1 - make_dot_pattern(...) are the grid positions of the dots, without any deviation for an odd dot size and all shifted by the same -(size//2)/area for an even one, if the dot size is below the distance. With at least four rows and columns, grouping them gives the rows and columns of the pattern and the calibration gives the identity model. A dot size equal to the distance passes the check 'Dot size must be smaller than the dot-distance' of make_dot_pattern, but then all dots touch and a single point is found.",
  "every image size, dot size, distance, margin, every order of labels, every binarisation and option", "All sizes; connected components of arbitrary images.", UTIL+": make_dot_pattern, make_circle_mask; "+PREP+": get_points_dot_pattern, group_dots_hor_lines, group_dots_ver_lines; "+PROC+": find_cod_coarse, calc_coef_backward, calc_coef_forward")
p("C101","Text metadata written by hand",
  "load_metadata_txt returns the numbers which are the last words of the lines of the file, in order, whatever precedes them, whatever white space separates the words and however the lines end (LF, CR LF, CR, with or without an end of the last line). Fewer than two lines raise IndexError; an empty or blank line raises IndexError and a line whose last word is not a number raises the error of float, whatever follows.",
  "every text, path and file system", "All texts; line ends and separators.", LOSA+": load_metadata_txt")
p("C102","Image files round trip",
  "After save_image of two-dimensional data to a .tif or .tiff file, load_image on the returned path gives the data as float32, whatever their type and the options are; data of shape (h, w, c) with c < h and c < w come back as the mean over the channels; uint8 data saved to a .png file come back unchanged. load_image writes nothing and raises ValueError for everything that is not an image file.",
  "every image, path, file system, overwrite and average option", "All images and states of the file system.", LOSA+": save_image, load_image")
p("C103","JSON metadata in any layout, and files that were cut off",
  "load_metadata_json returns the values of xcenter, ycenter and list_fact of any JSON object in the file, whatever the white space, the line ends, the order and spelling of its members and whatever other members it has; the last of several members with the same name counts. A missing name raises KeyError, a file that is not an object TypeError. A file cut anywhere before the closing brace raises ValueError: every proper beginning of a file written by save_metadata_json, and what save_metadata_json leaves behind when it fails on a coefficient it cannot encode. A text file of save_metadata_txt that was cut at a line end, in contrast, loads without complaint with fewer coefficients.",
  "every object, layout, path, file system and point of cutting", "All texts and all their beginnings.", LOSA+": save_metadata_json, load_metadata_json, save_metadata_txt, load_metadata_txt")
p("C104","Curved rows and columns of dots are recovered",
  "Seen in the frame turned by the angle of the slope, let the rows of a set of dots, given in any order, lie on polynomials of the fitted order, with neighbours at most (num_dot_miss + 1/2) line_dist apart along x and all dots of other rows farther than ratio * line_dist from the polynomial. If the dots around the middle of the x-range form, row by row, more than two and more than poly_order dots that the straight-line grouping keeps apart, and no row is too short for accepted_ratio, then group_dots_hor_lines_based_polyfit returns exactly these rows, complete and ordered along x, in the order of their mean y, whatever the overlap ratio. The only rows dropped are those whose median y differs from that of the row before by at most line_dist / 10; if all consecutive medians are that close nothing is dropped. The same holds for columns.",
  "every set of dots, order of dots, slope, distance, ratio, order of the polynomials and overlap", "All rows, polynomials and orders of the dots; the search loop runs any number of times.", PREP+": group_dots_hor_lines_based_polyfit, group_dots_ver_lines_based_polyfit, _get_nearby_hor_points_iter, _get_nearby_ver_points_iter")
p("C105","Loading never writes and says when there is no file",
  "load_image, load_hdf_file, load_hdf_object, get_hdf_information, find_hdf_key, load_metadata_txt, load_metadata_json and load_python_list leave the file system as it is, whatever their arguments and outcome. If nothing exists at the path, each raises ValueError; a directory raises ValueError or, for the listing, metadata and list functions, OSError.",
  "every path, file system, key, index and option", "All file systems and arguments.", LOSA+": load_image, load_hdf_file, load_hdf_object, get_hdf_information, find_hdf_key, load_metadata_txt, load_metadata_json, load_python_list")
p("C106","Where figures are written",
  "save_plot_image, save_residual_plot and save_plot_points with an extension which the plotting library does not support raise ValueError and write or change no file. With overwrite=True and a name without extension (also names that only start with dots), they return the path asked for, but the picture is in the file with .png behind the name stripped of the dots at its end, and no other file is written or changed.",
  "every path, file system, set of supported formats", "All names and states of the file system.", LOSA+": save_plot_image, save_residual_plot, save_plot_points")
p("C107","Rounding errors of the correction are bounded",
  "In double precision (without overflow) a point corrected by unwarp_line_forward differs in each coordinate from the point of the radial model by at most (7n + 3) 2^-51 (|c| + M (sum |a_i| M^i + 2^-500)), where a_0 .. a_(n-1) are the coefficients (n <= 1000), c is the coordinate of the centre and M the distance of the point from the centre or 1 if that is larger. For detectors up to 65536 pixels, ten coefficients and distortion factors up to 4 this is below 2^-26 of a pixel. unwarp_image_backward samples at positions that differ from the clipped positions of the model by this bound plus the rounding to single precision, 2^-24 of the image size, and with linear interpolation the pixels differ by at most the sum of these bounds times the largest difference between neighbouring pixels.",
  "every line, image, centre and list of at most 1000 coefficients", "Rounding errors of all inputs.", POST+": unwarp_line_forward, unwarp_image_backward")
p("C108","The documented chain on a generated dot pattern",
  "Take the picture 1 - make_dot_pattern(height, width, dot_distance, dot_size, margin) with dots that do not touch. If at least two dots lie strictly inside the region of interest of the given ratio, calc_size_distance returns the number of pixels of one dot and dot_distance; dots cut by the edge of the region, in any way, have no influence. If two dots lie there along an axis and the projections are highest at the middle angle, calc_hor_slope and calc_ver_slope return 0. Selecting dots by that size (any ratio >= 0) or by that distance (0 < ratio <= 1) changes no pixel. Passing the measured values on to group_dots_hor_lines and group_dots_ver_lines with the image gives the rows and columns of the pattern, and calibrating these gives the identity.",
  "every picture size, distance, dot size, margin, region of interest and setting of the steps", "All pattern geometries, including dots cut by the region of interest.", PREP+": calc_size_distance, calc_hor_slope, calc_ver_slope, select_dots_based_size, select_dots_based_distance, group_dots_hor_lines, group_dots_ver_lines; "+UTIL+": make_dot_pattern; "+PROC+": find_cod_coarse, calc_coef_backward, calc_coef_forward")
p("C109","Correction treats both axes alike",
  "Exchanging x and y of the points and of the centre exchanges x and y of the result of unwarp_line_forward and unwarp_line_backward, and unwarp_image_backward of the transposed image about the transposed centre is the transposed result; correct_perspective_line and correct_perspective_image do the same with exchanged coefficients. These hold exactly, with whatever rounding, for every interpolation that treats the axes alike. Mirroring points and centre mirrors the result. For unwarp_image_forward it holds if no two pixels land on the same one, and can fail otherwise, since the later pixel in row order wins.",
  "every line, image, centre, coefficients and rounding", "All images and roundings.", POST+": unwarp_line_forward, unwarp_line_backward, unwarp_image_backward, unwarp_image_forward, correct_perspective_line, correct_perspective_image")
p("C110","Correcting a photograph recovers the scene",
  "Let a lens move scene point q to D(q), with D the radial model of the coefficients (or the perspective of eight coefficients), and let the picture be the brightness at the pixel positions. Then each pixel of unwarp_image_backward (correct_perspective_image) differs from the scene at this pixel by at most the largest change of brightness over one pixel, plus that change times the rounding errors of the position, provided the scene point reached the detector; in smooth pictures the first term is a quarter of the bend of the brightness. Calibrating with a target seen through the lens (calc_coef_backward, under the conditions of exactness of C97) and correcting any other picture taken through it has the same bound.",
  "every scene, picture size, centre, coefficients, pixel; double precision or exact positions", "All scenes and lenses; the purpose of the library.", POST+": unwarp_image_backward, correct_perspective_image; "+PROC+": calc_coef_backward")
p("C111","Corrections whose radius increases do not fold",
  "If r F(r) increases with r up to the largest distance M from the centre (for example if a_0 > 2|a_1|M + 3|a_2|M^2 + ..., or if a_0 > 0 and the other coefficients are not negative), unwarp_line_forward moves points along their rays without reaching the centre, keeps the order of distances, keeps up and down and left and right along columns and rows, and never maps two points to one; unwarp_image_backward reads each column of the picture from top to bottom and each row from left to right; and unwarp_chunk_slices_backward returns exactly the rows of the corrected projections. Where r F(r) takes a value twice, two points become one.",
  "every model with increasing radius, line, image, volume, centre and range of slices", "All models, points and images.", POST+": unwarp_line_forward, unwarp_image_backward, unwarp_chunk_slices_backward")
p("C112","Grouping depends neither on the origin nor on the unit of length",
  "If all points are moved by the same vector and all lengths are multiplied by s > 0 (a region of interest cut elsewhere, a photograph at another resolution), and dot_dist and residual are given in the new unit, then group_dots_hor_lines, group_dots_ver_lines, remove_residual_dots_hor and remove_residual_dots_ver return the same lines with the same dots in the same order, moved and scaled likewise, or raise the same error.",
  "every list of points, slope, dot distance, tolerance, number of missing dots, accepted ratio and residual; every origin and positive scale; every sorting by comparison and every least-squares fit", "All point sets, origins and scales; the fit need not be unique.", PREP+": group_dots_hor_lines, group_dots_ver_lines, remove_residual_dots_hor, remove_residual_dots_ver, _check_dot_on_line")
p("C113","Calibrating on a tilted grid flattens the plane",
  "A camera with any projective map photographs a plane carrying a grid of dots. From the dots found on each row and column (at least two per line, the others may be missing, any order) generate_source_target_perspective_points returns as source points the images of all points of the grid, also of the missing ones, and as target points a rectangular grid (a square one if equal_dist). calc_perspective_coefficients on them yields coefficients that move every point of the photographed plane, not only the dots, to its place in the flat plan (mapping 'forward', correct_perspective_line), or back ('backward'); and correct_perspective_image with the backward coefficients shows the brightness of the plane laid out flat up to L pixels' worth of interpolation, L the steepness of the photograph.",
  "every invertible 3 x 3 camera that sees the grid, every grid size from 2 x 2, every selection of visible dots, all options, every brightness of the plane and image size up to 2^24 + 1", "All cameras, grids, missing dots and scenes.", PROC+": generate_source_target_perspective_points, regenerate_grid_points_linear, generate_undistorted_perspective_lines, calc_perspective_coefficients; "+POST+": correct_perspective_line, correct_perspective_image")
p("C114","Rounding errors of the perspective correction are bounded",
  "In double precision (without overflow) each coordinate (a x + b y + c) / (g x + h y + 1) computed by correct_perspective_line differs from the exact value q by at most 2^-48 (|a x| + |b y| + |c| + 2^-1000 + |q| (|g x| + |h y| + 1)) / |g x + h y + 1| + 2^-1074, provided the denominator is at least 2^-48 of its terms; on detectors of up to 65536 pixels with a denominator of at least 1/2 this is below 2^-26 of a pixel. correct_perspective_image samples at positions that differ from the clipped exact positions by this bound plus the rounding to single precision; with linear interpolation its pixels differ by at most the sum of these bounds times the largest difference between neighbouring pixels, and a scene photographed through the perspective is recovered up to this and the interpolation error.",
  "all points, all eight coefficients, all images up to 2^24 + 1 pixels in either direction, exact and double arithmetic", "All coefficients and points; rounding errors show only for special operands.", POST+": correct_perspective_line, _generate_perspective_map, correct_perspective_image")
p("C115","Corrections do not amplify noise and keep defects local",
  "If one photograph is nowhere brighter than another by more than D, then the same holds after unwarp_image_backward and after correct_perspective_image (order 1, same coefficients); so the corrections are monotone, and photographs that differ by at most D differ by at most D after the correction. A defective pixel changes only those pixels of the result whose clipped position in the photograph, by the model, is less than one pixel (plus the rounding errors of C107 and C114) away from it in both directions.",
  "all pairs of images of equal size up to 2^24 + 1 in either direction, all centres and coefficients, any rounding of the positions (for the locality: exact or double)", "All images, disturbances, coefficients and roundings.", POST+": unwarp_image_backward, correct_perspective_image")
p("C116","Automatic padding keeps every pixel of the photograph when the lens model is monotone",
  "With pad=True the margins are chosen from the four corners only. If the centre is inside the image, the fitted forward model never turns points around, and its factor either grows with the radius over the image (barrel) or never exceeds one (pincushion), then the corrected position of EVERY pixel of the photograph, not only of the corners, lies in the padded frame, less than one pixel outside at the top and left and less than two at the bottom and right. Without such a condition this is false: for a proper lens whose factor rises and falls back to one at the corners, no margin is added although the middle of an edge moves five pixels out of a 101 x 101 image.",
  "all image sizes, centres inside the image, coefficient lists and fitted forward models satisfying the stated condition, and all pixels of the image", "A test looks at the padding of one image; the claim is about every pixel under every monotone model, and the failing class (moustache distortion) is one no shipped test uses.", UTIL+": _calc_pad, unwarp_color_image_backward, unwarp_image_backward_cv2")
p("C117","Machine arithmetic neither overflows nor leaves the model",
  "Run on binary64 machine numbers, unwarp_line_forward and unwarp_image_backward (centre and points at most 2^20, images up to 2^20 pixels in either direction, up to 32 coefficients of at most 2^200) and correct_perspective_line and correct_perspective_image (coefficients at most 2^100, denominator not lost to cancellation) produce finite numbers only, never an overflow or NaN; the result is within the bounds of C107 and C114 of the model's exact value, and the positions sampled lie in the image. Without the condition on the denominator the position can be NaN, which clipping does not repair.",
  "all finite machine numbers up to the stated magnitudes, all lists of points and all image sizes up to 2^20, any correctly rounded power function", "There are 2^64 values per input; overflow and NaN appear only for particular combinations of them.", POST+": unwarp_line_forward, unwarp_image_backward, correct_perspective_line, correct_perspective_image")
p("C118","The lines of a clean line pattern are all found, and nothing else",
  "If the brightness along a profile is a background with lines of one symmetric, falling cross-section, further apart than half a line width plus the search radius, and the lines stand out against the sensitivity, then get_local_extrema_points reports exactly the samples nearest to the lines in the searched range, one for each line (two neighbouring ones only for a line midway between them), and refined positions stay within half a sample of the line. With the default options, every point of get_cross_points_hor_lines and get_cross_points_ver_lines on such an image then lies on a profile, at most half a sampling step beyond a line and at most half a step and sqrt 2 before it, and every line crossing the searched part of a profile is reported so.",
  "all profiles and images (4 to 32767 pixels) showing such lines, all cross-sections, positions, slopes, radii and sensitivities, with and without sub-pixel refinement", "All line positions relative to the pixels, all cross-sections and slopes.", LINE+": get_local_extrema_points, get_cross_points_hor_lines, get_cross_points_ver_lines, get_tilted_profile, locate_subpixel_point")
p("C119","How a volume is cut into chunks does not matter",
  "unwarp_chunk_slices_backward with equal start and stop index returns that row of the corrected projections, whatever the coefficients. When rows are sampled in the order of their indices, any chunk equals the same slices of any larger chunk, and processing a volume from top to bottom with any choice of chunk boundaries gives, chunk after chunk, exactly the rows of the corrected projections. The order holds in exact arithmetic when the corrected radius increases, and in double precision when a_0 exceeds 2|a_1|M + 3|a_2|M^2 + ... by 2^-25 on a detector of radius M; without it the result can depend on the cut. Correcting some of the projections, by slice or by chunk, gives those projections of the corrected volume, and fails the same way.",
  "all volumes (up to 32767 rows), centres, coefficients, chunk boundaries and projection ranges, in exact and double-precision arithmetic; the last part for any number type and interpolation", "All cuts of all volumes; the crop taken for each chunk depends on its first and last row.", POST+": unwarp_chunk_slices_backward, unwarp_slice_backward, unwarp_image_backward")
p("C120","Calibration does not amplify measurement errors",
  "For the coefficients F of calc_coef_forward and every other model P with as many coefficients, the sum over the dots of (F(r)-P(r))^2 plus the squared deviation of F from the dots equals the squared deviation of P from the dots; the same holds for calc_coef_backward and for the inverse of calc_coef_backward_from_forward. So if the true model P moves no dot further from its straight line than e times the dot's own distance, the root mean square of F-P over the dots is at most e, and at every distance x from the centre |F(x)-P(x)| is at most e times the square root of the number of dots times the sum of the absolute Lagrange weights at x of any nodes chosen among the dots' distances.",
  "every set of lines, centre, number of coefficients, option, model P, error e, distance x, and every exact least-squares routine", "All measurement errors and all models; tests compare with one model and one noise.", PROC+": calc_coef_forward, calc_coef_backward, calc_coef_backward_from_forward")
p("C121","The order of the dots within their lines does not matter",
  "Reordering the dots inside each line, in any way, leaves unchanged: the results, including the exceptions, of find_cod_coarse, find_cod_fine, find_cod_bailey, find_center_based_vanishing_points, regenerate_grid_points_parabola, regenerate_grid_points_linear, generate_undistorted_perspective_lines and generate_source_target_perspective_points; the positions of the straight lines; and, wherever the dots determine them, the coefficients of calc_coef_forward, calc_coef_backward and calc_coef_backward_from_forward. correct_perspective_effect returns the same dots in the new order.",
  "every set of lines each with enough dots at different positions to determine its parabola (or its straight line), every reordering, centre, option, and every exact fitting routine", "All orders of all dots; the tests always give the dots from left to right.", PROC+": find_cod_coarse, find_cod_fine, find_cod_bailey, calc_coef_forward, calc_coef_backward, calc_coef_backward_from_forward, regenerate_grid_points_parabola, regenerate_grid_points_linear, generate_source_target_perspective_points, correct_perspective_effect, find_center_based_vanishing_points")
p("C122","Saving beside other processes, through crashes, and over any history",
  "Each save function (text, JSON and pickle metadata, HDF file and stream, image, the three figures) takes several file-system steps: it looks for the folder, makes missing folders, looks for a free name, opens (truncates) the file and fills it. Run on its own, step by step, it ends with the result and files of the call. For any number of processes that save at the same time, under every interleaving of their steps and stopped at every moment (killed processes, crash of the machine), every file and folder that existed keeps its content unless some call was given overwrite=True and that very path. A call that shares no possible name and no folder-name clash with the others ends, under every schedule that gives it enough turns, with the result it has on its own and with the same files; at every moment each name it may use is as before, or is the name it picked and holds one of the contents it writes there in turn, and each of those moments exists. A JSON metadata file is at every moment as before, complete, or rejected by load_metadata_json. In every history of calls, the file that a call returned keeps what was written, and no later call returns it, unless overwrite=True names it. Three beliefs are false and refuted: overwrite=False does not protect two concurrent calls for the same path from each other (both return it, one content is lost); overwriting is not atomic (at some moment the old content is gone and the file is empty); a text metadata file cut off by a crash can load without error with coefficients missing.",
  "all save functions, names, contents and overwrite flags; all file systems; any number of concurrent calls; all interleavings and all crash points; all ways in which the text reaches the file in pieces; all histories of calls", "Tests run one call at a time and to its end. Interleavings, crash points and histories are unbounded, and the losing schedule of the race is one among very many.", LOSA+": _create_folder, _create_file_name, save_metadata_txt, save_metadata_json, save_python_list, save_hdf_file, open_hdf_stream, save_image, save_plot_image, save_residual_plot, save_plot_points, load_metadata_json, load_metadata_txt")
p("C123","The calibration treats left and right, and up and down, alike",
  "If a calibration photograph is mirrored left to right, upside down or both, so that the coordinates of all dots and of the centre change sign, and the rows or the columns are possibly listed from the other end, then: calc_coef_forward, calc_coef_backward and calc_coef_backward_from_forward return the same coefficients wherever the dots determine them, and the positions of the straight lines they are fitted to, and the missing-line warning, are the mirrored ones; find_cod_coarse returns the mirrored centre, and so does find_cod_bailey for every number of iterations. Listing lines from the other end needs one line nearest to the centre (for the coefficients) or one main change of curvature (for the centre): with two rows equally near, the order in which rows are listed changes the result.",
  "every set of rows and columns whose dots determine a parabola each, every centre, number of coefficients, option, choice of mirrored axes and of reversed lists, and every exact fitting routine and every odd storage rounding", "All photographs and both choices per axis; symmetry is a relation between two runs, on all inputs.", PROC+": calc_coef_forward, calc_coef_backward, calc_coef_backward_from_forward, find_cod_coarse, find_cod_bailey")
p("C124","The measurements on the dots follow the photograph however it is held",
  "If a binary image of dots is turned upside down, mirrored, transposed, given a blank frame, or any sequence of these, then: get_points_dot_pattern returns the centres of the same dots at their new places (in some order), check_num_dots gives the same answer, and selecting dots by size, by axis ratio or by distance gives the original selection moved in the same way. Turning, mirroring and transposing (without a frame) leave the result of calc_size_distance unchanged, including the error for a single dot, and binarization without denoising of the turned photograph is the turned binarization. In particular none of these results depends on how the dots are numbered.",
  "every binary (or non-negative 16-bit) image of any size and content, every sequence of motions and frame widths, every numbering of the dots, every size, distance and ratio", "All images, all sequences of motions and all numberings; invariance is a relation between two runs.", PREP+": get_points_dot_pattern, check_num_dots, select_dots_based_size, select_dots_based_ratio, select_dots_based_distance, calc_size_distance, binarization")
p("C125","A photograph of a dot target calibrates the same however it was held",
  "Take a binarised photograph of a dot target, and the same photograph turned upside down, mirrored, transposed and given black borders in any order and any number of times. If the dots of the first lie in clear rows and clear columns, then the whole calibration chain gives the same answer for both: get_points_dot_pattern finds the moved dots, group_dots_hor_lines and group_dots_ver_lines find the moved rows and columns (rows become columns when the coordinates were exchanged an odd number of times; slopes change sign with each mirroring), calc_undistor_intercept warns in the same cases, and calc_coef_forward, calc_coef_backward and calc_coef_backward_from_forward return the same coefficients when they are given the moved centre.",
  "all binary images with at least one dot and one background pixel, all labellings of both images, all sequences of motions and frames, all sort routines, slopes, dot distances, ratios, miss counts and acceptance ratios, all rows and columns that are clear for them, all centres whose nearest line is unique, all fitting and minimising routines that meet their specification, all odd storage roundings, both optimisation settings and all thresholds and numbers of coefficients", "A test compares two photographs for one motion. The claim couples five functions over all motions and all targets.", PREP+": get_points_dot_pattern, group_dots_hor_lines, group_dots_ver_lines; "+PROC+": calc_undistor_intercept, calc_coef_forward, calc_coef_backward, calc_coef_backward_from_forward")
p("C126","Correcting a photograph does not depend on how it was held",
  "Turn a photograph upside down, mirror it, transpose it, in any order and any number of times, and move the centre of distortion accordingly. Then unwarp_image_backward (default interpolation) of the moved photograph is the moved corrected photograph: exactly so when positions are stored exactly, and in double precision with single-precision positions up to the sum of the rounding errors of both runs. Together with C125: calibrating a moved target and correcting a moved photograph with the result gives the moved corrected photograph.",
  "every image of every size (up to 2^24+1 a side for the rounded claim), every sequence of motions, every centre and list of coefficients; for the calibrated claim every target with clear rows and columns", "A relation between two runs over all images and motions; the rounded version bounds an error for every image.", POST+": unwarp_image_backward; "+PREP+": get_points_dot_pattern, group_dots_hor_lines, group_dots_ver_lines; "+PROC+": calc_coef_backward")
p("C127","A corrected slice is as good as the corrected pictures",
  "unwarp_slice_backward applied to a stack of pictures gives, in each row, the row of the corrected picture (unwarp_image_backward, default interpolation) up to a stated single-precision error, and likewise the slice that unwarp_chunk_slices_backward gives for the same index. It never leaves the range of the pixel values when the limits are single-precision numbers (it can otherwise: a counterexample is given). A brighter stack gives a brighter slice, stacks differing by at most D give slices differing by at most D plus the rounding of the values, and when every picture shows a scene through the modelled lens each row of the slice shows the scene within the stated bound.",
  "every stack of pictures up to 32767 rows and 2^24+1 columns, every centre, coefficients and index, exact and double-precision arithmetic; every scene with bounded steepness for the last claim", "Bounds for all images and coefficients at once, between functions that compute in different precisions; a test sees one image.", POST+": unwarp_slice_backward, unwarp_image_backward, unwarp_chunk_slices_backward")
p("C128","Four pairs of points determine the perspective correction, both ways and however the photograph is held",
  "For any four pairs of points, no three of them on a line on either side, calc_perspective_coefficients returns coefficients which reproduce all four pairs exactly and which are the only projective map doing so, unless that map sends the pixel (0, 0) to infinity, in which case no coefficients reproduce the pairs. The coefficients of the two values of mapping undo each other on every point where the first is defined. Giving the points in other coordinates (origin, units, axes, separately for source and target) gives the same map in these coordinates. Turning, mirroring or transposing the photograph together with the points gives the moved corrected photograph: exactly with exactly stored positions, and within the sum of the rounding bounds of C114 in double precision.",
  "every four pairs in general position, every longer list of consistent pairs containing such four, every list of lines, every invertible affine change of coordinates, every photograph and sequence of motions", "Existence and uniqueness over all configurations, and relations between two runs; tests try a few points.", PROC+": calc_perspective_coefficients; "+POST+": correct_perspective_line, correct_perspective_image")
p("C129","The centre of distortion follows the shape of the pixels and the exchange of the axes",
  "If all row coordinates of the grouped dots are multiplied by a nonzero factor and all column coordinates by another (pixels of another size or shape, a mirrored photograph), then the centres returned by find_cod_coarse, find_cod_bailey (any number of iterations), find_center_based_vanishing_points and the start of find_center_based_vanishing_points_iteration are multiplied by the same factors, and a failure stays the same failure. If rows and columns are exchanged (a transposed photograph), find_cod_bailey and both constructions from vanishing points return the exchanged centre.",
  "every pair of nonzero factors, every list of horizontal and vertical lines with dots at three positions at least, every number of iterations, every least-squares, root and sorting routine", "A relation between two runs over all grids and factors; tests use one grid in one orientation.", PROC+": find_cod_coarse, find_cod_bailey, find_center_based_vanishing_points, find_center_based_vanishing_points_iteration")
p("C130","Noise, exposure and contrast do not change the dots that are found",
  "binarization gives the same binary picture, or the same failure, for two photographs of the same scene (a) if their pixels differ by at most e and the thresholds, given or found automatically, stay clear of the compared values by e, with or without the median filter; (b) if one is the other under a strictly increasing change of brightness and the threshold changes with it; (c) without the median filter, if one is the negative of the other, no pixel is exactly at the threshold and not exactly half of the pixels are bright. get_points_dot_pattern then returns the same dot centres. With the median filter the negative of a photograph need not give the same picture.",
  "every photograph, noise, brightness change and threshold, every rank filter, threshold finder, labelling and morphological operation that only looks at the pixels of the picture", "A relation between two runs over all photographs and all noise; a test compares one photograph with itself.", PREP+": binarization, _invert_dots_contrast, _select_roi, get_points_dot_pattern")
p("C131","A padded photograph, gray or coloured, shows the scene in the larger frame",
  "If a photograph, gray or coloured, records a scene through a lens with the given model, then unwarp_color_image_backward with any accepted padding returns a picture enlarged by the padding in which pixel (i, j) shows the scene point (i - top, j - left), in every channel, up to the change of brightness over one pixel and the rounding of stored positions, wherever that point reached the detector; the values used for padding do not leak into these pixels. With automatic padding, a monotone model and its exact inverse, every pixel of the photograph shows a scene point whose place is in the enlarged frame.",
  "every photograph and number of channels, every lens model and centre, every padding and padding mode, every scene with bounded change of brightness", "Relates a real scene to the result for all scenes and paddings; tests compare single arrays.", UTIL+": unwarp_color_image_backward, _calc_pad")
p("C132","Points corrected with the backward model are as accurate as the minimiser and agree with the corrected picture",
  "For every line of measured points, unwarp_line_backward returns for each measured point p a point q on the ray of p such that distorting q with the model misses p by exactly what the numerical minimiser left over; a minimiser that never returns a worse value than at its start never makes a point fit the model worse than uncorrected. If the distorted radius rises at least k times as fast as the radius up to M (for instance with k = a_0 - 2|a_1|M - 3|a_2|M^2 - ...), q is no further from the true undistorted point than this remainder divided by k. If a photograph records a scene through the lens, q marks in the scene, and in the picture corrected by unwarp_image_backward, the brightness that p marks in the photograph, up to the remainder times the steepness of the photograph, the change of the scene between q and the pixel, and the error of the picture itself. A negative radius returned by the minimiser is not noticed, and then the point may be anywhere on its line through the centre.",
  "every list of lines of points, centre, list of coefficients and behaviour of the minimiser with a non-negative result; every photographed scene with bounded change of brightness", "The result depends on an iterative minimiser and real-valued points; tests compare a few points with a tolerance.", POST+": unwarp_line_backward, _func_diff, unwarp_image_backward")
p("C133","Correcting first the lens and then the perspective recovers a tilted plane",
  "A plane carrying a grid of dots is photographed by a tilted camera through a distorting lens whose distorted radius increases. If the minimiser finds the radii, unwarp_line_backward gives exactly the lines the camera would have shown without the lens; from them generate_source_target_perspective_points and calc_perspective_coefficients give a rectangular plan and the coefficients for it; and applying unwarp_image_backward and then correct_perspective_image to any photograph taken with this lens and camera shows the plane laid out flat: each pixel differs from the plane by at most the error of the first correction (C110) and the change of the view around the point, over the pixels that can contribute to it, wherever those were on the detector.",
  "every projective camera, lens model with increasing radius, centre, grid of at least 2 x 2 lines with dots missing and in any order, every photographed brightness of bounded steepness, every pixel", "A chain of five functions about all cameras, lenses and scenes; tests run single functions on single arrays.", POST+": unwarp_line_backward, unwarp_image_backward, correct_perspective_image; "+PROC+": regenerate_grid_points_linear, generate_source_target_perspective_points, calc_perspective_coefficients")
p("C134","Whatever the lens, a centred target gives the true centre of distortion",
  "Take a photograph whose lines are symmetric under a half turn about the centre of distortion: the first line is turned into the last, and so on (for example a regular target of any spacing, skew and rotation, centred on the optical axis and seen through any rotationally symmetric lens, not only a polynomial or parabolic one). If the number of lines is even in both directions, the lines of one half all bend to the same side and the middle lines are not parallel, then find_cod_coarse returns that centre exactly, although it only averages two least-squares parabolas; and if the lines of one half also pass the centre on the same side, find_cod_bailey keeps it for every number of iterations, without dividing by zero. With an odd number of lines the middle line is straight, the first of two equal sign changes is taken and find_cod_coarse can be half a line spacing off (shown).",
  "every magnification function of the radius, every centre, every regular or merely symmetric pattern with dots in any order on each line, every number of iterations, every correct least-squares routine", "Tests use one polynomial lens and one grid and accept a tolerance; the claim is exact, for every lens function and every symmetric pattern.", PROC+": find_cod_coarse, find_cod_bailey")
p("C135","Small measuring errors move the centre of distortion only a little",
  "Let every line have at least three separate dots, every direction at least two lines, no fitted line be exactly straight, and the middle lines not be parallel. Then find_cod_coarse depends continuously on the dots: for every wanted accuracy e there is a tolerance d such that, whenever every dot is off by at most d along each axis, find_cod_coarse still succeeds and its result moves by at most e. The same holds for find_cod_bailey with any number of iterations if, at every centre it starts an update from, the curvature of the lines does change along the axis. Without the first condition it is false (shown): when the middle line is exactly straight, as on every centred target with an odd number of lines, arbitrarily small errors make find_cod_coarse jump by more than a line spacing.",
  "every set of lines and dots, every displacement of all the dots at once within the tolerance, every accuracy, every number of iterations, every correct least-squares routine", "Tests add one sample of noise to one grid; the claim is about all displacements below a tolerance and all accuracies.", PROC+": find_cod_coarse, find_cod_bailey, _para_fit_hor, _para_fit_ver")
p("C136","A slightly wrong model corrects slightly wrong",
  "Correct the same points or the same photograph with two models: coefficients F and centre c (the true lens), or coefficients G and centre d (what the calibration gave). Each corrected position of the two differs by at most |d - c| |1 - G(r')| + r (sum of |G_k - F_k| r^k + |d - c| sum of k |F_k| r^(k-1)), r being the larger distance from the two centres, for lists of coefficients of any lengths. So unwarp_line_forward with the wrong model misplaces a point by at most that much, and unwarp_image_backward with the wrong model, in double precision, shows the scene up to the change of brightness over one pixel, over twice that error, and rounding. The bound goes to zero with the errors of the coefficients and of the centre, uniformly over any field of view.",
  "all coefficients of both models (any numbers of them), all centres, all points and pixels, all scenes with bounded steepness, exact or double arithmetic", "Tests correct with one perturbed model; the bound must hold for all models, all points and all pictures.", POST+": unwarp_line_forward, unwarp_image_backward")
p("C137","Small measuring errors change the calibrated model and the corrected positions only a little",
  "Calibrate by finding the centre (with Bailey's method and any number of updates, or in any other way that depends continuously on the dots) and then the coefficients with calc_coef_backward or calc_coef_forward. Provided that every line has three separate dots, that in each direction one line is nearer to the centre than the others, that neither a straightened line nor a fitted parabola meets the centre's axis at a dot, and that the dots lie at as many distinct distances as there are coefficients, the calibration succeeds and is continuous: for every e there is a d such that moving every dot by at most d along each axis still gives a calibration, with the centre and every coefficient within e. Over any field of view, the positions corrected with the two models then differ by at most any wanted e. The nearest line is needed: with two lines equally near, arbitrarily small errors change a coefficient by more than one fifth.",
  "all targets meeting the conditions (any numbers of lines and dots), all numbers of coefficients, both values of optimizing, all thresholds, all displacements of the dots, all tolerances, all fields of view", "Tests perturb one target in a few ways; continuity is about every small perturbation and every tolerance.", PROC+": find_cod_bailey, calc_coef_backward, calc_coef_forward, _calc_undistor_intercept, _check_missing_lines")
p("C138","Small measuring errors change the perspective model and the corrected positions only a little",
  "Let the pairs of source and target points have only one best perspective map (for example because some map sends every source to its target and four of the points are in general position). Then calc_perspective_coefficients, in either direction, is continuous: for every e there is a d such that changing every coordinate of every point by at most d still gives eight coefficients, each within e of the original ones. The grid of regenerate_grid_points_linear is continuous in the dots if each line has two separate dots and the fitted lines meet. The pairs themselves, as generate_source_target_perspective_points gives them for any distance, scale and optimising option, move by at most any wanted e when every dot of the lines moves by at most a suitable d, if the lines are clear: two separate dots on each, fitted lines that meet, intercepts that are not all equal, and trends of the slopes whose difference is not exactly the 1/10000 at which the routine changes its formula (there the targets do jump). And correct_perspective_line is continuous in the coefficients over any field of view that keeps a distance from the line sent to infinity, so that, from the dots to the end, the positions corrected with the two models differ by at most any wanted e.",
  "all numbers of pairs, all points with a single best map, both directions, all clear lines of dots and all options, all displacements of the points or dots, all tolerances, all fields of view, every exact least-squares solver", "Tests perturb a few points of one target; continuity is about every small perturbation, every target and every tolerance.", PROC+": generate_source_target_perspective_points, calc_perspective_coefficients; "+POST+": correct_perspective_line")
