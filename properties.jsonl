{"id": "C01", "title": "Forward unwarping of points is exactly the radial polynomial model", "statement": "unwarp_line_forward returns as many lines as it is given, each with as many points, and the j-th point of the i-th output line is center + F(r)*(p - center), where p is the j-th point of the i-th input line, r its distance to the center and F(r) = sum_k list_fact[k]*r^k. In particular a point on the center stays there, every other point stays on its line through the center at distance |F(r)|*r, list_fact=[1] is the identity, and the result commutes with translating points and center together and with rotating the points about the center.", "quantifier": "every list of float-typed lines, every center, every coefficient list", "why_tests_cant": "Tests compare one 64x64 grid with a tolerance of one pixel; the identity must hold for every point, center and polynomial length.", "anchors": ["discorpy/post/postprocessing.py: unwarp_line_forward"]}
{"id": "C02", "title": "Integer-typed lines are truncated by forward unwarping", "statement": "When a line is given as an integer array the unwarped coordinates of C01 are truncated towards zero to whole pixels (the result array inherits the dtype of the input); when it is given as float32 they are rounded to float32; hence the result for the same point values depends on the dtype and can be off by almost a whole pixel.", "quantifier": "every line, dtype, center and coefficient list; witness for the loss", "why_tests_cant": "Tests only use float arrays; the dtype-dependence is a universally quantified claim about the store into zeros_like(line).", "anchors": ["discorpy/post/postprocessing.py: unwarp_line_forward"]}
{"id": "C03", "title": "Backward unwarping of points inverts the backward model", "statement": "For every point for which the numerical minimiser reaches a zero of its objective, distorting the point returned by unwarp_line_backward with the backward model (center + B(r)*(q - center)) gives back the input point, provided the minimiser returned a non-negative radius; a point on the center is returned as the center; the number and order of lines and points is preserved.", "quantifier": "every list of lines, center, coefficient list and every minimiser outcome with zero objective", "why_tests_cant": "The minimiser is external; the test uses one grid with one pixel tolerance.", "anchors": ["discorpy/post/postprocessing.py: unwarp_line_backward, _func_diff"]}
{"id": "C04", "title": "Image unwarping only samples inside the image", "statement": "unwarp_image_backward returns an image of the same shape in which every pixel is a (bilinear, order=1) interpolation of the source at a coordinate pair that lies in [0,width-1]x[0,height-1]; hence every output value lies between the smallest and the largest pixel of the input and a constant image is returned unchanged. Holds for every rounding of the coordinate arithmetic, for images up to 2^24+1 pixels wide and high.", "quantifier": "every image of at least one pixel, every center, every coefficient list (also wildly wrong ones), every rounding of intermediate results", "why_tests_cant": "The coordinate map is an arbitrary polynomial of the radius; tests can sample few polynomials and centers.", "anchors": ["discorpy/post/postprocessing.py: unwarp_image_backward"]}
{"id": "C05", "title": "Identity coefficients leave an image unchanged", "statement": "With list_fact=[1.0, 0, ..., 0], unwarp_image_backward, unwarp_image_forward and unwarp_color_image_backward(pad=False) return the input image exactly (exact coordinate arithmetic, float32 casts as in the code), for every center.", "quantifier": "every image up to 2^24 pixels per side, every center, any number of trailing zero coefficients", "why_tests_cant": "Quantifies over all images and centers, and needs exactness of the float32 cast of integer coordinates.", "anchors": ["discorpy/post/postprocessing.py: unwarp_image_backward, unwarp_image_forward", "discorpy/util/utility.py: unwarp_color_image_backward"]}
{"id": "C06", "title": "Image unwarping is linear in the image", "statement": "For order=1, unwarping a*M1+b*M2 gives a*unwarp(M1)+b*unwarp(M2) pixel by pixel; in particular adding an offset or scaling the intensities before or after the correction is the same.", "quantifier": "every pair of images of one shape, every a, b, center, coefficients", "why_tests_cant": "A universally quantified algebraic law.", "anchors": ["discorpy/post/postprocessing.py: unwarp_image_backward"]}
{"id": "C07", "title": "Forward image unwarping moves pixels and never fails", "statement": "unwarp_image_forward never indexes outside the image; each output pixel is either zero, when no input pixel is mapped to it, or equals the value of the last input pixel (in row-major order) whose clipped and rounded forward-mapped position is that pixel.", "quantifier": "every image, center and coefficient list", "why_tests_cant": "Which source wins depends on collisions of a polynomial map; needs all maps.", "anchors": ["discorpy/post/postprocessing.py: unwarp_image_forward"]}
{"id": "C08", "title": "A single unwarped slice samples the same data as the full projection", "statement": "For heights up to 32767, unwarp_slice_backward(mat3D, ..., index)[i][j] equals the bilinear sample of the whole projection mat3D[i] at the clipped backward-mapped position of (index, j): cropping the projection to the needed rows does not change the result.", "quantifier": "every 3D array (>=1 pixel in each dimension), center, coefficients and index (any integer)", "why_tests_cant": "Equality of a cropped and an uncropped computation for every polynomial; tests only look at one sinogram.", "anchors": ["discorpy/post/postprocessing.py: unwarp_slice_backward"]}
{"id": "C09", "title": "A chunk of slices equals the rows of the unwarped projections", "statement": "When the call is accepted, unwarp_chunk_slices_backward(mat3D, ..., start, stop) has depth x (stop-start+1) x width elements - the stop row is included - and element [i][k] is row start+k of unwarp_image_backward(mat3D[i], order=1, mode='reflect'), provided the backward-mapped row position is monotone in the row along each column between start and stop. Holds for every rounding of the coordinate arithmetic.", "quantifier": "every 3D array with height <= 32767, every center and coefficient list monotone along columns, every accepted start<=stop", "why_tests_cant": "Equality of two pipelines with different cropping; the test only checks that something changed.", "anchors": ["discorpy/post/postprocessing.py: unwarp_chunk_slices_backward, _mapping, unwarp_image_backward"]}
{"id": "C10", "title": "Which chunk ranges are accepted", "statement": "For heights up to 32767 unwarp_chunk_slices_backward raises ValueError exactly when the array has fewer than three dimensions, or start_index is outside [0,height-1], or stop_index is outside [0,height-1]. In particular stop_index=-1, which the code rewrites to height, is always rejected.", "quantifier": "every shape, start_index and stop_index", "why_tests_cant": "The rejection of the documented-looking -1 default is a statement about all shapes.", "anchors": ["discorpy/post/postprocessing.py: unwarp_chunk_slices_backward"]}
{"id": "C11", "title": "Tall detectors overflow the 16-bit row index", "statement": "The guarantee of C08 does not extend to all heights: because the row range is computed as a 16-bit integer there are arrays with more than 32768 rows for which unwarp_slice_backward with identity coefficients returns data of a different row.", "quantifier": "existence of an array; the positive part (C08) covers every height <= 32767", "why_tests_cant": "Needs arrays with more than 32768 rows; no test uses them.", "anchors": ["discorpy/post/postprocessing.py: unwarp_slice_backward"]}
{"id": "C12", "title": "Residuals: size, order, sign and meaning", "statement": "calc_residual_hor / calc_residual_ver return one [radius, residual] pair per dot, sorted by increasing radius; the pairs are a rearrangement of: radius = distance of the dot to the center, residual = Euclidean distance of the dot to the fitted straight line of its own line; residuals are >= 0, are all 0 when the dots of each line are exactly collinear (and have at least two distinct abscissae), and do not depend on the center. Without any line both raise IndexError. calc_residual_ver is calc_residual_hor with x and y exchanged.", "quantifier": "every list of lines, every center, every least-squares fit, every sorting algorithm", "why_tests_cant": "The fit and sort are external; the claims are universally quantified geometry.", "anchors": ["discorpy/post/postprocessing.py: calc_residual_hor, calc_residual_ver"]}
{"id": "C13", "title": "check_distortion decides exactly the 15% rule", "statement": "check_distortion returns True exactly when strictly more than 15% of the residuals are strictly greater than 1 (20*k > 3*n), also when evaluated in binary64 arithmetic for up to 2^50 dots, and raises ZeroDivisionError on an empty list.", "quantifier": "every residual list", "why_tests_cant": "Boundary at exactly 15% for every n, in floating point.", "anchors": ["discorpy/post/postprocessing.py: check_distortion"]}
{"id": "C14", "title": "Perspective correction of lines is the projective map of its 8 coefficients", "statement": "correct_perspective_line raises ValueError unless it is given exactly 8 coefficients; otherwise it preserves the number and order of lines and points and maps each (y,x) by the 3x3 projective matrix [[c1,c2,c3],[c4,c5,c6],[c7,c8,1]]. Where denominators do not vanish it maps collinear points to collinear points, applying it twice is the map of the matrix product, and a matrix followed by its inverse is the identity.", "quantifier": "every list of lines and every coefficient list", "why_tests_cant": "Universally quantified projective geometry.", "anchors": ["discorpy/post/postprocessing.py: correct_perspective_line"]}
{"id": "C15", "title": "Perspective correction of an image", "statement": "correct_perspective_image raises ValueError unless given 8 coefficients, returns an image of the same shape whose pixels are bilinear samples (order=1) of the input at the clipped projective image of the pixel, so values stay within the input range; with identity coefficients (1,0,0,0,1,0,0,0) it returns the input; with a precomputed map_index the coefficients' values are irrelevant, and passing the index map generated for an image of the same shape gives the same result as passing None; an index map whose number of points is not height*width raises ValueError, any other is sampled row by row.", "quantifier": "every image, coefficient list and index map", "why_tests_cant": "All images and coefficients.", "anchors": ["discorpy/post/postprocessing.py: correct_perspective_image, _generate_perspective_map"]}
{"id": "C16", "title": "Circle mask membership and symmetry", "statement": "make_circle_mask(width, ratio) is a width x width array with value 1 exactly at pixels with (i-c)^2+(j-c)^2 <= (ratio*c)^2, c = width//2, and 0 elsewhere; it is symmetric under transposition for every width, and under both flips for every odd width.", "quantifier": "every width >= 0, ratio", "why_tests_cant": "All widths and ratios.", "anchors": ["discorpy/util/utility.py: make_circle_mask", "discorpy/prep/linepattern.py: _make_circle_mask"]}
{"id": "C17", "title": "Dot-pattern image: binary, blank margins, disjoint dots", "statement": "When make_dot_pattern succeeds every pixel is 0 or 1; a pixel is 0 exactly when it lies in the disk of some grid dot; all pixels within the margin of the border are 1 (blank); and no pixel lies in the windows of two different dots. It raises ValueError exactly when dot_distance < dot_size (after clipping the size) or when margin is a sequence of fewer than two numbers.", "quantifier": "every height, width, dot distance, dot size and margin (scalar or pair) with images at least 8 pixels", "why_tests_cant": "Combinatorial statement over all parameters.", "anchors": ["discorpy/util/utility.py: make_dot_pattern, make_circle_mask"]}
{"id": "C18", "title": "Line-pattern image: exact set of dark pixels", "statement": "make_line_pattern gives 0 exactly at pixels belonging to one of the horizontal stripes (rows margin+k*distance .. +line_size-1, restricted to the columns between the first and the last vertical stripe) or one of the vertical stripes, and 1 elsewhere; margins stay blank; swapping height/width and the margins transposes the image; if one direction has no stripe and the other has, it raises IndexError.", "quantifier": "every height, width, distance > 0, size, margin >= 0", "why_tests_cant": "Combinatorial statement over all parameters.", "anchors": ["discorpy/util/utility.py: make_line_pattern"]}
{"id": "C19", "title": "Chessboard image: exact alternating cells", "statement": "make_chessboard gives, at a pixel of cell (a,b) counted from offset size+margin, 1.0 when a+b is even and 0.0 when odd, for exactly the cells whose start is below height-margin-size (resp. width), and margin_grayscale at every other pixel; the outer margin is never written. Size 0 raises ValueError.", "quantifier": "every height, width, cell size > 0, margin >= 0", "why_tests_cant": "Closed form of nested loops with slice assignments for all parameters.", "anchors": ["discorpy/util/utility.py: make_chessboard"]}
{"id": "C20", "title": "Point lookup agrees with line unwarping and inverts", "statement": "find_point_to_point returns (x,y) (or (y,x) for any other output_order) of center + F(r)*(p - center), i.e. the same point as unwarp_line_forward; if the two polynomials satisfy B(F(r)*r)*F(r) = 1 at the radius of the point and F(r) >= 0, looking a point up with F and the result with B gives the point back.", "quantifier": "every point, center, coefficient lists", "why_tests_cant": "Algebraic law over all points and models.", "anchors": ["discorpy/util/utility.py: find_point_to_point", "discorpy/post/postprocessing.py: unwarp_line_forward"]}
{"id": "C21", "title": "Padding argument: accepted forms and automatic padding", "statement": "The pad argument of unwarp_color_image_backward / unwarp_image_backward_cv2: False pads nothing; an int pads that much on all four sides; a tuple or list of length 4 is (top,bottom,left,right); any other length or type raises ValueError; True gives four non-negative widths such that each corner of the source image, mapped through the fitted forward model, lies strictly less than 1 pixel outside the padded image at top/left and strictly less than 2 pixels outside at bottom/right.", "quantifier": "every pad value, image size, center, coefficients and every fitted inverse polynomial", "why_tests_cant": "Corners are mapped by an arbitrary fitted polynomial.", "anchors": ["discorpy/util/utility.py: _calc_pad, unwarp_color_image_backward"]}
{"id": "C22", "title": "Color unwarping is channel-wise gray unwarping of the padded image", "statement": "unwarp_color_image_backward of a 2D image with pad=False equals unwarp_image_backward; of a 3D image, channel c of the result equals the 2D result for channel c; with padding (t,b,l,r) the result equals unwarp_image_backward of the padded image with center (xcenter+l, ycenter+t), and its shape is (height+t+b, width+l+r). Holds for every spline order, boundary mode and arithmetic.", "quantifier": "every image, number of channels, center, coefficients, non-negative padding, interpolation routine", "why_tests_cant": "Equality of two implementations for all inputs.", "anchors": ["discorpy/util/utility.py: unwarp_color_image_backward", "discorpy/post/postprocessing.py: unwarp_image_backward"]}
{"id": "C23", "title": "OpenCV and scipy variants sample the same positions", "statement": "unwarp_image_backward_cv2 and unwarp_video_cv2 hand the remap routine exactly the coordinate maps that unwarp_color_image_backward hands to map_coordinates for the same image size, padding, center and coefficients.", "quantifier": "every image size, padding, center, coefficients, every arithmetic", "why_tests_cant": "Equality for all parameters; the cv2 functions are excluded from coverage.", "anchors": ["discorpy/util/utility.py: unwarp_image_backward_cv2, unwarp_video_cv2, unwarp_color_image_backward"]}
{"id": "C24", "title": "Video unwarping: which frames are shown and when it stops", "statement": "unwarp_video_cv2 discards the first frame; afterwards it shows the corrected version of every frame successfully read, in order, up to and including the first one after which ESC is reported, then releases the camera; the corrected version is what unwarp_image_backward_cv2 gives for the frame. If ESC is never reported it never returns: after the end of a finite stream it loops for ever without releasing the camera. If the first read fails and padding is requested it raises at the first later frame. A frame with another number of axes than the first one (padding requested) raises ValueError after all earlier frames were shown.", "quantifier": "every stream of read results and key presses, any number of steps", "why_tests_cant": "Non-termination and infinite histories cannot be tested; function is marked no-cover.", "anchors": ["discorpy/util/utility.py: unwarp_video_cv2"]}
{"id": "C25", "title": "Update of the center undoes the shift to the center", "statement": "update_center adds (ycenter, xcenter) to every (y,x) point and preserves counts and order; applied to the shifted lines that the parabola fits return it restores the original points.", "quantifier": "every list of lines and every center", "why_tests_cant": "All inputs.", "anchors": ["discorpy/proc/processing.py: update_center, _para_fit_hor, _para_fit_ver"]}
{"id": "C26", "title": "Coarse center is the crossing of the two middle lines, and x/y symmetric", "statement": "find_cod_coarse returns the intersection point of the line with averaged slope/intercept of the two horizontal parabolas at the first sign change of curvature with the analogous vertical line (when slopes are not reciprocal); exchanging the roles of x and y in the input exchanges xcenter and ycenter; fewer than two lines in a direction raises an exception.", "quantifier": "every set of lines, every parabola fit", "why_tests_cant": "Geometry for all inputs.", "anchors": ["discorpy/proc/processing.py: find_cod_coarse"]}
{"id": "C27", "title": "Bailey's method is exact on ideal parabolic grids", "statement": "If each horizontal line consists of points on y = k*(c_i - yc)*(x-xc)^2 + c_i and each vertical line on x = k*(d_j - xc)*(y-yc)^2 + d_j (k<>0, at least three distinct points a line and two distinct lines a direction, the averaged middle lines of the coarse step not parallel, and, for k<0, the coarse centre (X,Y) with 1+k(X-xc)^2 and 1+k(Y-yc)^2 non-zero), find_cod_bailey returns exactly (xc, yc) for every number of iterations >= 0 (exact arithmetic).", "quantifier": "every ideal grid, every iteration count", "why_tests_cant": "Exactness for a family of inputs and all iteration counts.", "anchors": ["discorpy/proc/processing.py: find_cod_bailey, _para_fit_hor, _para_fit_ver"]}
{"id": "C28", "title": "Fine search stays in its window and minimises the metric", "statement": "find_cod_fine moves the coarse center by less than point_dist+4 pixels in each direction, and each of its two stages picks a shift whose metric is minimal among all shifts of the stage's grid; the metric of a shift is the sum of the absolute intercepts of straight lines fitted to the points of the nearby parabolas found nearest to the shifted center.", "quantifier": "every set of lines, coarse center, point distance > 0, every metric value", "why_tests_cant": "All metric landscapes.", "anchors": ["discorpy/proc/processing.py: find_cod_fine, _calc_metric"]}
{"id": "C29", "title": "Undistorted intercepts are equidistant and exact on undistorted grids", "statement": "The undistorted intercepts used by the calc_coef functions lie at equal distances on both sides of the line nearest the center; if the measured intercepts are strictly monotone and equidistant, with at least four lines in each direction, they are returned unchanged and no warning about missing lines is issued.", "quantifier": "every list of fitted lines", "why_tests_cant": "All grids.", "anchors": ["discorpy/proc/processing.py: _calc_undistor_intercept"]}
{"id": "C30", "title": "Calibration of an undistorted grid gives the identity model", "statement": "For an undistorted grid (all lines straight, parallel to the axes, equidistant, none through the center, enough distinct radii) calc_coef_backward, calc_coef_forward and calc_coef_backward_from_forward return [1,0,...,0] with max(1,num_fact) coefficients (exact arithmetic, exact least squares).", "quantifier": "every undistorted grid, center off the lines, num_fact", "why_tests_cant": "All grids and polynomial lengths.", "anchors": ["discorpy/proc/processing.py: calc_coef_backward, calc_coef_forward, calc_coef_backward_from_forward"]}
{"id": "C31", "title": "Transforming coefficients between backward and forward", "statement": "transform_coef_backward_and_forward returns the same coefficients for mapping='backward' and mapping='forward'; raises ValueError when fewer reference points than coefficients are given; whenever the inverse relation is exactly polynomial on the reference points, the returned polynomial G satisfies G(F(r)*r)*F(r)=1 at every reference radius with F(r)<>0, so that distorting and undistorting returns the point; [k] is transformed to [1/k].", "quantifier": "every coefficient list, reference points, least-squares solver", "why_tests_cant": "External solver; all inputs.", "anchors": ["discorpy/proc/processing.py: transform_coef_backward_and_forward"]}
{"id": "C32", "title": "Regenerated linear grid", "statement": "regenerate_grid_points_linear returns num_hor x num_ver points where point (i,j) lies on horizontal line i and vertical line j (when a1*a2<>1, exact arithmetic up to the final float32 store) and the second result is the transpose of the first.", "quantifier": "every list of line coefficients", "why_tests_cant": "All lines.", "anchors": ["discorpy/proc/processing.py: regenerate_grid_points_linear, _find_cross_point_between_lines"]}
{"id": "C33", "title": "Undistorted perspective lines form an orthogonal equidistant grid", "statement": "With at least two lines in each direction, generate_undistorted_perspective_lines succeeds and returns points of a grid whose horizontal lines are mutually parallel, whose vertical lines are perpendicular to them and which are equidistant in each direction; with equal_dist=True the two distances agree; point (i,j) of the first result is point (j,i) of the second.", "quantifier": "every list of lines, every option, every optimiser outcome", "why_tests_cant": "All inputs.", "anchors": ["discorpy/proc/processing.py: generate_undistorted_perspective_lines, _calc_undistor_intercept_perspective"]}
{"id": "C34", "title": "Four perspective points: ordering and rectangle", "statement": "generate_4_source_target_perspective_points raises ValueError unless given 4 points; when two points lie above the other two and each pair has distinct x-coordinates, the source points are a rearrangement of the input (independent of the input order) ordered top-left, top-right, bottom-left, bottom-right; the target points form a rectangle (parallelogram with a right angle) whose side lengths are the selected distances (mean/min/max/scaled; equal when equal_dist); input_order='xy' equals 'yx' with swapped coordinates.", "quantifier": "every four points and options", "why_tests_cant": "All geometries and permutations.", "anchors": ["discorpy/proc/processing.py: generate_4_source_target_perspective_points"]}
{"id": "C35", "title": "Perspective coefficients reproduce consistent point pairs", "statement": "If some 8-coefficient projective map sends every source point to its target (with non-zero denominators), the coefficients returned by calc_perspective_coefficients(mapping='forward') send, via correct_perspective_line, every source point (with non-zero denominator) to its target; mapping='backward' is 'forward' with source and target exchanged.", "quantifier": "every point list, every least-squares solver", "why_tests_cant": "External solver; all inputs.", "anchors": ["discorpy/proc/processing.py: calc_perspective_coefficients", "discorpy/post/postprocessing.py: correct_perspective_line"]}
{"id": "C36", "title": "Perspective correction of calibration lines: counts, and the unreachable input checks", "statement": "correct_perspective_effect raises ValueError when fewer than 2 lines are given in a direction; otherwise it preserves the number of lines and of points per line. Its checks for a missing curvature direction never fire: when no line opens one way no ValueError is raised by the check: min/max raise IndexError, and mean/median go on with NaN, which reaches the least-squares solver.", "quantifier": "every set of lines", "why_tests_cant": "Dead error branches can only be shown dead by proof.", "anchors": ["discorpy/proc/processing.py: correct_perspective_effect, __get_representative_linear_coefs"]}
{"id": "C37", "title": "Crossing of two same-orientation parabolas", "statement": "When the two leading coefficients differ the routine used by the vanishing-point methods returns None exactly when the parabolas do not meet and otherwise exactly the abscissae where they meet; when the leading coefficients are equal it returns fewer than two values. find_center_based_vanishing_points only pairs lines of opposite curvature and therefore always returns a centre on lines with points; find_center_based_vanishing_points_iteration raises ValueError whenever another line has the curvature of the flattest one, in particular on every grid of straight lines parallel to the axes.", "quantifier": "every pair of parabolas", "why_tests_cant": "All coefficient pairs, including the degenerate ones.", "anchors": ["discorpy/proc/processing.py: _find_cross_point_between_parabolas_same_direction, find_center_based_vanishing_points, _find_center_based_vanishing_points_2nd_way"]}
{"id": "C38", "title": "Parabola grid regeneration is consistent", "statement": "regenerate_grid_points_parabola returns num_hor x num_ver points such that the second result is the transpose of the first, and each point lies on both fitted parabolas (about the origin, or about the centre found) up to the residual of the nonlinear solver; it succeeds on all lines with points (at least two per direction when a centre is needed).", "quantifier": "every set of lines, solver outcome", "why_tests_cant": "External solver.", "anchors": ["discorpy/proc/processing.py: regenerate_grid_points_parabola, _find_cross_point_between_parabolas"]}
{"id": "C39", "title": "Region of interest is central, non-empty where expected and inside the image", "statement": "The ROI used by binarization, calc_size_distance, slopes: for every ratio (clipped to [0.05,1]) the non-square ROI removes the same number of rows at top and bottom and columns left and right and is non-empty for every image with at least one row and column; the square ROI has even side 2*(int(ratio*min(h,w))//2), lies inside the image.", "quantifier": "every image size and ratio", "why_tests_cant": "All sizes.", "anchors": ["discorpy/prep/preprocessing.py: _select_roi"]}
{"id": "C40", "title": "Contrast inversion makes dots the minority", "statement": "For a binary image the contrast-normalised image used by binarization has at most half of its pixels set; it is the image itself or its complement. Binarization thresholds the image strictly above the given threshold, or, without one, above the threshold computed from its region of interest; with denoising both refer to the median-filtered absolute values.", "quantifier": "every binary image; every image, threshold, ratio and denoising choice", "why_tests_cant": "All images.", "anchors": ["discorpy/prep/preprocessing.py: _invert_dots_contrast, binarization"]}
{"id": "C41", "title": "Dot selection by size/ratio only copies bounding boxes of the input", "statement": "select_dots_based_size and select_dots_based_ratio return an image of the same shape in which a pixel is the input pixel if it lies in the bounding box of an accepted component and 0 otherwise; so no pixel is invented. It is not true that every pixel of a rejected component is removed: pixels of a rejected component inside the bounding box of an accepted one survive.", "quantifier": "every binary image, criterion", "why_tests_cant": "All images; the overlap case needs a witness.", "anchors": ["discorpy/prep/preprocessing.py: select_dots_based_size, select_dots_based_ratio"]}
{"id": "C42", "title": "Distance criterion is one-sided", "statement": "select_dots_based_distance keeps a dot exactly when, for one of its (up to) three nearest neighbours, the distance exceeds a whole multiple of dot_dist by less than ratio*dot_dist; consequently a dot whose neighbours are all slightly nearer than dot_dist (between ratio*dot_dist and dot_dist) is removed.", "quantifier": "every dot arrangement, ratio in (0,1), dot_dist > 0", "why_tests_cant": "All distances.", "anchors": ["discorpy/prep/preprocessing.py: select_dots_based_distance"]}
{"id": "C43", "title": "Line membership test is symmetric", "statement": "Two dots are considered neighbours on a line exactly when their x-distance is below num_dot_miss*dot_dist and the distance of one to the line with the given slope through the other is below ratio*dot_dist; the relation is symmetric and invariant under translation.", "quantifier": "every pair of dots and parameters", "why_tests_cant": "All reals.", "anchors": ["discorpy/prep/preprocessing.py: _check_dot_on_line"]}
{"id": "C44", "title": "Grouping dots into lines: soundness", "statement": "group_dots_hor_lines terminates on every point list; every returned line has at least two dots; all dots of all returned lines together are a sub-multiset of the input (no dot invented, none used twice); within a line dots are ordered by x and consecutive dots satisfy the membership test; lines are ordered by mean y. An empty list raises ValueError.", "quantifier": "every list of points and parameters, every membership test", "why_tests_cant": "Loop over a shrinking array for all inputs.", "anchors": ["discorpy/prep/preprocessing.py: group_dots_hor_lines"]}
{"id": "C45", "title": "Grouping dots: completeness before length selection, and the strict length rule", "statement": "Before short lines are dropped every dot is in exactly one group or single, and no dot left out of a finished line passes the test against the line's running end at its position; the length rule keeps exactly the lines with more than int(accepted_ratio*max_length) dots - strictly more, so with accepted_ratio=1.0 the result is always empty although the documentation says equal or larger.", "quantifier": "every list of points and parameters", "why_tests_cant": "All inputs; boundary.", "anchors": ["discorpy/prep/preprocessing.py: group_dots_hor_lines"]}
{"id": "C46", "title": "Vertical grouping is horizontal grouping with exchanged coordinates", "statement": "group_dots_ver_lines(points, ...) equals group_dots_hor_lines of the points with x and y exchanged (same options), with the coordinates of the result exchanged back; likewise remove_residual_dots_ver / _hor and the polynomial-fit grouping.", "quantifier": "every list of points and parameters", "why_tests_cant": "Equality of duplicated code for all inputs.", "anchors": ["discorpy/prep/preprocessing.py: group_dots_ver_lines, group_dots_hor_lines, remove_residual_dots_hor, remove_residual_dots_ver"]}
{"id": "C47", "title": "Residual-dot removal only removes", "statement": "remove_residual_dots_hor/_ver return, for each line that keeps at least one dot, exactly the dots (in order) whose vertical deviation from the line's own fitted parabola, times cos(atan(slope)), is below the residual; lines without such dots disappear, and ValueError is raised exactly when nothing is left.", "quantifier": "every list of lines", "why_tests_cant": "All inputs.", "anchors": ["discorpy/prep/preprocessing.py: remove_residual_dots_hor, remove_residual_dots_ver"]}
{"id": "C48", "title": "Parabola mask membership and mirror symmetry", "statement": "Without rotation make_parabola_mask is 1 exactly where the pixel is strictly inside the four parabolas and 0 elsewhere; raises ValueError exactly when left+right > width or top+bottom > height; pixels within a non-negative margin are 0 for non-negative curviness; with equal margins it is symmetric under x -> width-x and y -> height-y.", "quantifier": "every size, curviness, margins", "why_tests_cant": "All parameters.", "anchors": ["discorpy/prep/preprocessing.py: make_parabola_mask"]}
{"id": "C49", "title": "Point removal by mask: result and failure", "statement": "If all points have integer parts inside the image, remove_points_using_parabola_mask returns exactly the points whose integer pixel is inside the mask, in order. A point whose integer row is >= height or < -height (or column likewise) makes the call raise IndexError instead of being filtered; a point with a negative in-range index is filtered out.", "quantifier": "every list of points", "why_tests_cant": "All point positions.", "anchors": ["discorpy/prep/preprocessing.py: remove_points_using_parabola_mask"]}
{"id": "C50", "title": "Rotating points is a rotation", "statement": "rotate_points preserves the number of points and all pairwise distances, rotating by 0 is the identity, rotating by a then b is rotating by a+b, and rotating by -a undoes rotating by a; degrees are radians*180/pi.", "quantifier": "every list of points and angles", "why_tests_cant": "All reals.", "anchors": ["discorpy/prep/preprocessing.py: rotate_points"]}
{"id": "C51", "title": "Subset removal is ordered multiset filtering", "statement": "remove_subset_points returns exactly the points not occurring among the selected ones, in order and with multiplicity.", "quantifier": "every two lists of points", "why_tests_cant": "All lists.", "anchors": ["discorpy/prep/preprocessing.py: remove_subset_points"]}
{"id": "C52", "title": "Iterative neighbour search terminates and only adds", "statement": "The iterative neighbour search used by the polynomial-fit grouping terminates for every input (exact arithmetic); its result contains all initial points and only initial points or members of the point list.", "quantifier": "every initial set, point list, window, search distance of any sign, overlap ratio, fit", "why_tests_cant": "Termination of a while loop for all inputs.", "anchors": ["discorpy/prep/preprocessing.py: _get_nearby_hor_points_iter, _get_nearby_ver_points_iter"]}
{"id": "C53", "title": "Polynomial-fit grouping re-uses stale points for short groups", "statement": "group_dots_hor_lines_based_polyfit does not guarantee that a returned line stems from one group: there is an input on which a two-dot group makes it return a line that contains dots of different horizontal lines (the whole central selection), and one on which a two-dot group after a longer one makes it return a line of points that are not input dots (the previous line rotated once more). It always terminates; when all central groups have more than two dots every returned line stems from one group and holds input dots only.", "quantifier": "every input (termination, long groups); existence of an input (refutations)", "why_tests_cant": "A rarely-taken path (2-dot group first) not covered by tests.", "anchors": ["discorpy/prep/preprocessing.py: group_dots_hor_lines_based_polyfit"]}
{"id": "C54", "title": "Threshold calculation is affine-equivariant and depends only on the grey-value distribution", "statement": "calculate_threshold of a*mat+b is a*threshold+b for a>0, permuting the pixels does not change it, and for snr>=0 it is, for bgr='bright', not above the value of the fitted background line at the first grey level and, for 'dark', not below its value at the last one; with a non-negative fitted slope it lies outside the whole fitted range.", "quantifier": "every image, a>0, b, snr, linear resampling routine", "why_tests_cant": "Algebraic law.", "anchors": ["discorpy/prep/preprocessing.py: calculate_threshold"]}
{"id": "C55", "title": "Background normalisation does not guard against zero background", "statement": "normalization / normalization_fft compute mean*mat/background pixel-wise; the fallback for zero background never runs because array division does not raise: a zero background pixel yields infinity or NaN.", "quantifier": "every image and background; floating-point semantics", "why_tests_cant": "Dead code can only be shown dead by proof.", "anchors": ["discorpy/prep/preprocessing.py: normalization, normalization_fft"]}
{"id": "C56", "title": "Decision rules on dots", "statement": "check_num_dots returns True exactly when fewer than 25 components are found; the size test accepts exactly sizes within [dot_size-ratio*dot_size (at least 0), dot_size+ratio*dot_size].", "quantifier": "every image / size", "why_tests_cant": "Boundaries.", "anchors": ["discorpy/prep/preprocessing.py: check_num_dots, _check_dot_size, select_dots_based_size"]}
{"id": "C57", "title": "Sub-pixel extremum position stays in range", "statement": "locate_subpixel_point returns a position in [0, n) for every profile of n>=1 points; it returns the vertex of the fitted parabola when the vertex lies in [0, n), whichever extremum was asked for, and otherwise the first position of the extremum asked for. Consequently the option does not matter for a parabola with its vertex in range: asked for the minimum of samples of a downward parabola it returns their maximum.", "quantifier": "every profile, fit", "why_tests_cant": "All profiles.", "anchors": ["discorpy/prep/linepattern.py: locate_subpixel_point"]}
{"id": "C58", "title": "Good-peak selection is an ordered sub-list", "statement": "select_good_peaks returns a sub-list (in order) of the given peaks; every selected peak has a window of more than 3 samples with non-zero deviation and passes the tolerance tests of the Gaussian fitted to the rescaled window; a radius below 2 selects nothing; with use_offset it selects a subset of what it selects without.", "quantifier": "every profile, peak list, fit outcome", "why_tests_cant": "External fit.", "anchors": ["discorpy/prep/linepattern.py: select_good_peaks"]}
{"id": "C59", "title": "Sliding-window slopes", "statement": "sliding_window_slope raises ValueError exactly for fewer than 3 samples; otherwise it returns one non-negative value per sample (float input); a constant profile gives zeros; with norm the mean is 1 unless all slopes vanish, and the result does not change when the data are scaled by a non-zero factor or shifted. For integer input the slopes are stored truncated to integers, so slopes below one are lost.", "quantifier": "every profile, window size", "why_tests_cant": "All profiles.", "anchors": ["discorpy/prep/linepattern.py: sliding_window_slope"]}
{"id": "C60", "title": "Local extrema: soundness and the excluded last position", "statement": "Every position reported by get_local_extrema_points (subpixel=False) lies in [radius, n-radius-2], and is a minimum of its window whose relative depth exceeds the sensitivity; conversely every such position is reported. The position n-radius-1, which also has a full window, is never reported. The options denoise, find-max and norm amount to a search in the filtered, upside-down or background-normalised profile. With subpixel=True each position moves to the vertex of the parabola through its three samples (at most half a sample), but a bottom of three equal samples is reported one sample to the left, so the result need not be increasing.", "quantifier": "every profile and parameters", "why_tests_cant": "All profiles.", "anchors": ["discorpy/prep/linepattern.py: get_local_extrema_points"]}
{"id": "C61", "title": "Tilted profiles stay inside the image", "statement": "For angles strictly between -90 and 90 degrees and images up to 32767 pixels, get_tilted_profile accepts an index iff the whole line fits (rows ceil(w*tan a)..h-1 for a positive angle, 0..h-1-floor(w*tan|a|) otherwise; columns likewise) and raises ValueError otherwise, also at +-90 degrees. Every sampled position lies in the image; it is the point of the tilted line, moved by at most one pixel at the far edge; the crop handed to the interpolation contains every sampled position and equals the image there, so a position on a pixel gives that pixel. At angle 0 the profile of row r is not the row: sample k is taken at column k + k/(w-1). With 32768 rows or more the crop bounds wrap (int16) and profiles of different images coincide.", "quantifier": "every image size, index, angle, direction and interpolation routine", "why_tests_cant": "Trigonometry and rounding for all sizes and angles.", "anchors": ["discorpy/prep/linepattern.py: get_tilted_profile, _calc_index_range"]}
{"id": "C62", "title": "Generated profile indices are always accepted", "statement": "In exact arithmetic get_cross_points_hor_lines / _ver_lines only request profile indices inside the extractable range: for every image from 5x5 up and every positive step they return iff some index is accepted for that slope and raise ValueError otherwise. In double precision this is false: np.arange may pass its end (default ratio 0.3, lines 6 pixels apart, 17x100 image, slope -0.065 asks for row 16.000000000000004 of 0..16), and the whole call raises ValueError.", "quantifier": "every image, slope, spacing, offset and option", "why_tests_cant": "All parameters.", "anchors": ["discorpy/prep/linepattern.py: get_cross_points_hor_lines, get_cross_points_ver_lines, _calc_index_range"]}
{"id": "C63", "title": "Saving with overwrite=False never touches an existing file", "statement": "Every save function with overwrite=False writes to a path that did not exist before, returns that path, and leaves the content of every pre-existing file unchanged; the chosen name is the requested one if free, else the requested name with the smallest free _NNNN counter (at least 4 digits) inserted before the extension; the search terminates whenever finitely many files exist. (Plots need a name with an extension: saved without one, save_plot_image creates a folder, and matplotlib then overwrites '<name>_0000.png' although overwrite=False and the returned path does not exist.)", "quantifier": "every file system state and requested path", "why_tests_cant": "All file-system states.", "anchors": ["discorpy/losa/loadersaver.py: _create_file_name, save_metadata_txt, save_metadata_json, save_python_list, save_hdf_file, save_image"]}
{"id": "C64", "title": "Extension handling", "statement": "save_metadata_txt/json/save_python_list/save_hdf_file keep an accepted extension (any case) and otherwise replace the last extension by the default one; hence different requested names such as 'scan.001' and 'scan.002' are written to the same file. A path without a file name raises ValueError and nothing is written.", "quantifier": "every file name", "why_tests_cant": "All names.", "anchors": ["discorpy/losa/loadersaver.py: save_metadata_txt, save_metadata_json, save_python_list, save_hdf_file, open_hdf_stream"]}
{"id": "C65", "title": "Text metadata round trip", "statement": "load_metadata_txt(save_metadata_txt(path, x, y, facts)) returns exactly (x, y, facts) for every number of coefficients, provided str/float round-trip on the numbers and str produces no white space. The file holds one line 'name = number' per number: xcenter, ycenter, factor0, factor1, ....", "quantifier": "every path, file system, center, coefficient list", "why_tests_cant": "All coefficient lists; formatting.", "anchors": ["discorpy/losa/loadersaver.py: save_metadata_txt, load_metadata_txt"]}
{"id": "C66", "title": "JSON metadata round trip", "statement": "load_metadata_json(save_metadata_json(path, x, y, facts)) returns (x, y, facts as a list) for lists, tuples and arrays of numbers.", "quantifier": "every path, file system, center, coefficient list", "why_tests_cant": "Printer/parser inverse for all inputs.", "anchors": ["discorpy/losa/loadersaver.py: save_metadata_json, load_metadata_json, __numpy_encoder"]}
{"id": "C67", "title": "Failed JSON save destroys an existing file", "statement": "A center that cannot be converted to float makes save_metadata_json raise before any file content changes; a coefficient that is not JSON serialisable makes it raise after the target file was truncated, so an existing file with the target name loses its content.", "quantifier": "every file system state, every failing argument", "why_tests_cant": "Crash point between truncation and write.", "anchors": ["discorpy/losa/loadersaver.py: save_metadata_json"]}
{"id": "C68", "title": "Windows path correction undoes string escapes", "statement": "For every path text whose backslash sequences are only the single-letter escapes a,b,f,n,r,t,v,0 or non-escapes, correcting the text after Python's unescaping gives the same forward-slash path as correcting the raw text; correction is idempotent and its result contains no backslash or control character from the list.", "quantifier": "every string", "why_tests_cant": "All strings.", "anchors": ["discorpy/losa/loadersaver.py: __correct_path"]}
{"id": "C69", "title": "Folder creation for paths without extension", "statement": "Saving creates the parent folder of a path with an extension, but for save_image/save_plot_image a path without an extension is itself created as a folder.", "quantifier": "every path and file system", "why_tests_cant": "All paths.", "anchors": ["discorpy/losa/loadersaver.py: _create_folder, save_image"]}
{"id": "C70", "title": "HDF listing", "statement": "get_hdf_information returns three lists of equal length; every dataset of the file is listed with its shape and type, and every listed shape/type is that of the object the key resolves to; datasets inside groups are listed twice. find_hdf_key returns exactly the entries of get_hdf_information whose key contains the pattern. load_hdf_object returns the object a key leads to, every listed dataset among them, and raises ValueError for a key that leads nowhere or a path that is no HDF file.", "quantifier": "every HDF tree, every pattern, every key", "why_tests_cant": "All trees.", "anchors": ["discorpy/losa/loadersaver.py: get_hdf_information, find_hdf_key, load_hdf_object"]}
{"id": "C71", "title": "Automatic dataset key", "statement": "load_hdf_file without key_path uses the first (in visiting order) group's child dataset named 'data'; a dataset named 'data' in the root group is never found and ValueError is raised if no other exists. With a key_path it reads the object load_hdf_object gives: ValueError if there is none (or no HDF file), AttributeError if it is a group, ValueError if the dataset has neither 2 nor 3 dimensions, and a 2D dataset is returned as it is for every index and axis.", "quantifier": "every HDF tree", "why_tests_cant": "All trees.", "anchors": ["discorpy/losa/loadersaver.py: load_hdf_file, _get_key"]}
{"id": "C72", "title": "Slicing of 3D datasets", "statement": "load_hdf_file on a 3D dataset with an in-range integer index returns the 2D plane, unless the plane has extent 1 along the tested axis, in which case it returns a 1D row or raises IndexError; with a range of one index along axis 0 or 1 it returns the 2D plane; with a range of exactly one index along axis 2 it always raises IndexError; an empty range raises ValueError and so does a step of 0; otherwise it returns the selected planes. Indices which are not increasing (so every range with a negative step and two or more indices) or out of range are rejected.", "quantifier": "every shape, axis, index form", "why_tests_cant": "All shapes.", "anchors": ["discorpy/losa/loadersaver.py: load_hdf_file"]}
{"id": "C73", "title": "HDF save/load round trip", "statement": "load_hdf_file(save_hdf_file(path, data)) returns the 2D data unchanged and 3D data converted to float32, with and without giving the key path.", "quantifier": "every path, file system, 2D/3D data", "why_tests_cant": "All shapes and states.", "anchors": ["discorpy/losa/loadersaver.py: save_hdf_file, load_hdf_file"]}
{"id": "C74", "title": "Stream option keys", "statement": "open_hdf_stream raises ValueError as soon as an option key contains key_path as a substring - also for sibling keys such as 'entry/data_dark' - and at that point an existing target file has already been truncated (it holds exactly the options before that key). On a writable target a stream is opened exactly when no option key contains key_path and no key (key_path included) is empty, equal to another or leads through another; every other case is a ValueError.", "quantifier": "every option list, key path and file system", "why_tests_cant": "Crash point; all keys.", "anchors": ["discorpy/losa/loadersaver.py: open_hdf_stream"]}
{"id": "C75", "title": "8-bit image scaling", "statement": "save_image to a file whose extension is not exactly .tif or .tiff maps non-uint8 data with more than one value monotonically into 0..255 with minimum->0 and maximum->255 in exact arithmetic (254 or 255 in float32/float64 arithmetic, and 254 does occur), for floating point data and for integer data whose range fits the integer type (signed data with a larger range wrap around); constant data are converted modulo 256; uint8 data are stored unchanged.", "quantifier": "every image", "why_tests_cant": "All images.", "anchors": ["discorpy/losa/loadersaver.py: save_image"]}
{"id": "C76", "title": "Averaging of multichannel images picks the smallest axis", "statement": "load_image/save_image average along the first axis of minimal length: for height,width > channels this is the channel axis; for images with height <= channels it is not, so the result does not have the image's shape.", "quantifier": "every shape", "why_tests_cant": "All shapes.", "anchors": ["discorpy/losa/loadersaver.py: load_image, save_image"]}
{"id": "C77", "title": "File search", "statement": "find_file returns the matching files sorted, each exactly once, and raises FileNotFoundError exactly when none matches.", "quantifier": "every directory content, every matcher", "why_tests_cant": "All directories.", "anchors": ["discorpy/losa/loadersaver.py: find_file"]}
{"id": "C78", "title": "Pickle round trip", "statement": "load_python_list(save_python_list(path, v)) returns v, for every path and file system, provided pickle itself round-trips on v.", "quantifier": "every path, file system, value", "why_tests_cant": "All states.", "anchors": ["discorpy/losa/loadersaver.py: save_python_list, load_python_list"]}
{"id": "C79", "title": "Opened stream file", "statement": "When open_hdf_stream succeeds, the file at the returned path holds under key_path a dataset of the requested type and shape filled with zeros, and holds every dataset given in options under its key; none of the option keys contains key_path. It holds no other dataset.", "quantifier": "every path, file system, shape, key and options", "why_tests_cant": "All option lists and states.", "anchors": ["discorpy/losa/loadersaver.py: open_hdf_stream"]}
{"id": "C80", "title": "Typical dot size and spacing are medians", "statement": "calc_size_distance returns the median of the dot sizes (sums of pixel values per component of the border-cleared region) and the median over the dots of the distance to the nearest other dot centre; with a single dot it raises IndexError.", "quantifier": "every image, ratio, labelling with at least two dots", "why_tests_cant": "Quantifies over all images and labellings.", "anchors": ["discorpy/prep/preprocessing.py: calc_size_distance"]}
{"id": "C81", "title": "Slope of collinear dots is exact", "statement": "If the dot centres of the region lie on one line, calc_hor_slope (calc_ver_slope) returns either the slope of that line or the tangent of the coarse angle in -30..30 degrees that maximises the Radon projection, and it returns the exact slope whenever every dot has a neighbour that stays within the search tolerance of the coarse line.", "quantifier": "every image whose dots are collinear, every Radon routine, sort and line fit", "why_tests_cant": "All images and oracles.", "anchors": ["discorpy/prep/preprocessing.py: calc_hor_slope, calc_ver_slope"]}
{"id": "C82", "title": "Dot centres of a binary image", "statement": "get_points_dot_pattern without binarisation returns one point per component, in label order, namely its centre of mass, which lies inside the bounding box of the component; it succeeds exactly when the image has values in [0,1] with a 0 and a 1 among them, and otherwise raises ValueError.", "quantifier": "every image and labelling", "why_tests_cant": "All images.", "anchors": ["discorpy/prep/preprocessing.py: get_points_dot_pattern"]}
{"id": "C83", "title": "Calibration with two or three lines in a direction computes with NaN", "statement": "When one direction has only two or three lines, the undistorted intercepts used by calc_coef_backward and calc_coef_forward (without optimisation) are NaN in both directions, because the line distance is the mean of an empty array; no exception is raised at that point.", "quantifier": "every set of lines with 2 or 3 lines in a direction, every fit", "why_tests_cant": "All inputs, in IEEE arithmetic.", "anchors": ["discorpy/proc/processing.py: _calc_undistor_intercept, calc_coef_backward, calc_coef_forward"]}
{"id": "C84", "title": "A grid without perspective distortion stays as it is", "statement": "If the lines are two families of equidistant parallel lines at right angles to each other, generate_undistorted_perspective_lines returns the same points as regenerate_grid_points_linear for every distance option (with equal_dist=True when the two distances agree, with a float scale when it is 1 or optimising); generate_source_target_perspective_points returns equal source and target points and calc_perspective_coefficients the identity coefficients, in both directions.", "quantifier": "every orthogonal equidistant grid of at least 2 x 2 lines and every option", "why_tests_cant": "All grids, rotations and options.", "anchors": ["discorpy/proc/processing.py: generate_undistorted_perspective_lines, generate_source_target_perspective_points, calc_perspective_coefficients"]}
{"id": "C85", "title": "Vanishing-point methods find the centre of ideal distorted grids", "statement": "On lines which are exactly the parabolas of a radially distorted grid about (xc, yc), find_center_based_vanishing_points and find_center_based_vanishing_points_iteration return (xc, yc), for barrel distortion through the vanishing points (two lines on each side of the centre) and for pincushion distortion through find_cod_bailey. For lines of any shape, the result is the point where the straight line fitted to the vanishing points of the horizontal lines meets the one of the vertical lines; the vanishing points are the intersections of the fitted parabolas, paired from the flattest on by opposite curvature (first function) or each with the flattest one (start of the iterative one); with two or fewer vanishing points in a direction it is the result of find_cod_bailey. Each iteration corrects the perspective effect about the centre found so far and adds the centre found from the corrected lines moved there.", "quantifier": "every centre, distortion strength, grid, iteration count and method", "why_tests_cant": "All grids; external fits and root finding.", "anchors": ["discorpy/proc/processing.py: find_center_based_vanishing_points, find_center_based_vanishing_points_iteration"]}
{"id": "C86", "title": "Perspective correction leaves a grid without perspective distortion unchanged", "statement": "On lines which are exactly the parabolas of a radially distorted grid about (xc, yc), with lines on both sides of the centre in both directions, correct_perspective_effect with that centre returns the lines unchanged for every method and scale (a float scale being 1).", "quantifier": "every centre, distortion strength, grid, method and scale", "why_tests_cant": "All grids; external fits.", "anchors": ["discorpy/proc/processing.py: correct_perspective_effect"]}
{"id": "C87", "title": "Parabola grid with perspective correction is regular", "statement": "regenerate_grid_points_parabola(perspective=True) returns points on regular parabolas: the fitted ones about the centre of distortion, with one common slope (of opposite sign for the vertical lines) and with the intercepts and leading coefficients rescaled so that the line distances near the centre agree in both directions; on an ideal radially distorted grid with one line distance the result equals the one without perspective correction about the centre.", "quantifier": "every set of lines, solver outcome", "why_tests_cant": "External solver; all inputs.", "anchors": ["discorpy/proc/processing.py: regenerate_grid_points_parabola, _generate_non_perspective_parabola_coef"]}
{"id": "C88", "title": "Optimised line distances do not depend on the scale option", "statement": "With optimizing=True, generate_undistorted_perspective_lines returns the same lines for scale='mean', 'median' and every float (also for 'max' and 'min' when equal_dist=False): the option only gives the start value of a strictly convex minimisation.", "quantifier": "every set of lines with at least two per direction, every pair of options", "why_tests_cant": "All inputs and options.", "anchors": ["discorpy/proc/processing.py: generate_undistorted_perspective_lines, _calc_undistor_intercept_perspective"]}
{"id": "C92", "title": "Local extrema do not depend on the brightness scale", "statement": "Multiplying a profile by a positive factor does not change what get_local_extrema_points returns (norm=False, denoise=False, any option, with or without sub-pixel refinement). Adding an offset does change it: the depth is relative to the level.", "quantifier": "every profile, factor, radius and sensitivity", "why_tests_cant": "All profiles and factors.", "anchors": ["discorpy/prep/linepattern.py: get_local_extrema_points"]}
{"id": "C93", "title": "Background normalisation of profiles", "statement": "With norm=True each sample is divided by the value, at its rank, of the line fitted to the middle half of the sorted samples. A profile whose samples in some order are evenly spaced and non-zero (constants, ramps, and every rearrangement of a ramp) becomes 1 everywhere: no extremum is reported, however deep its dips. For distinct samples and a background line without zero the result does not depend on the brightness scale.", "quantifier": "every profile, radius and sensitivity", "why_tests_cant": "All profiles.", "anchors": ["discorpy/prep/linepattern.py: get_local_extrema_points"]}
{"id": "C91", "title": "Cross points lie on the generated lines, slightly before the feature", "statement": "The points returned by get_cross_points_hor_lines / _ver_lines are exactly: for each generated line (from the first accepted index plus the clipped offset, in steps of ratio*distance) and each local maximum found on its profile, one point; it satisfies x = index + slope*y (hor_lines) or y = index + slope*x (ver_lines) and lies in the image up to one pixel. A maximum at sample p is reported at a distance from the start of the line that is too short by up to sqrt(2)*p/(n-1): with slope 0, what is seen at column p + p/(n-1) is reported at column p (a line in column 16 of a 21-column image at 15).", "quantifier": "every image, slope, spacing, offset and option, exact arithmetic", "why_tests_cant": "Real-valued geometry for all sizes and slopes.", "anchors": ["discorpy/prep/linepattern.py: get_cross_points_hor_lines, get_cross_points_ver_lines, get_tilted_profile"]}
{"id": "C89", "title": "Slope and distance of the lines", "statement": "calc_slope_distance_hor_lines / _ver_lines return the tangent of the angle (measured from 90 degrees for horizontal lines) whose projection of the central disc (radius 92% of half the square region) has the largest maximum among a coarse grid of whole degrees and then a fine grid of 0.05 degrees within one degree of the coarse winner, the smallest such angle on ties; the slope never exceeds tan(search_range + 1 degree). The distance is the median (more than three lines) or mean of the gaps of the maxima of that projection, lies between the smallest and the largest gap and equals the spacing of equidistant lines. With bgr='bright' a brightness offset changes nothing. If fewer than two lines are found no error is raised and the distance is NaN; an image too small for the ratio raises ValueError.", "quantifier": "every image, ratio, search range and option, exact arithmetic (NaN claim in doubles)", "why_tests_cant": "All images; external projection.", "anchors": ["discorpy/prep/linepattern.py: calc_slope_distance_hor_lines, calc_slope_distance_ver_lines"]}
{"id": "C90", "title": "Chessboard images become line patterns", "statement": "convert_chessboard_to_linepattern returns an image of the same shape whose pixels are the mean absolute central differences (inverted for a bright background), those of the outer border replicated from inside, divided by their average: values are non-negative and average to 1 unless the image has no edges. The result does not change under any change of brightness and contrast, including exchanging black and white. Images not larger than the border raise ValueError; a uniform image gives NaN everywhere in doubles, without an error.", "quantifier": "every image, smoothing width and background", "why_tests_cant": "All images and contrasts.", "anchors": ["discorpy/prep/linepattern.py: convert_chessboard_to_linepattern"]}
{"id": "C95", "title": "Warning about missing lines", "statement": "The calibration functions warn about missing lines exactly when, among the horizontal or among the vertical lines, the distance of some neighbours differs from the parabola fitted to all distances by more than the fraction threshold. Up to four lines in a direction never cause it, and one line missing next to the border of seven is not noticed with the default threshold, while one missing in the middle is.", "quantifier": "every set of lines, centre, threshold and least-squares routine", "why_tests_cant": "All inputs; external fit.", "anchors": ["discorpy/proc/processing.py: calc_coef_backward, calc_coef_forward, _calc_undistor_intercept, _check_missing_lines"]}
{"id": "C94", "title": "Rows and columns are exchangeable", "statement": "get_tilted_profile along a row tilted by an angle returns what it returns for the transposed image along the column tilted by the opposite angle, with the two coordinates exchanged. get_cross_points_hor_lines on the transposed image returns the points of get_cross_points_ver_lines on the image for the same slope, coordinates exchanged, if width*slope is a whole number and the offset is within the smaller of the two limits. Otherwise the accepted lines may differ: a line accepted in one orientation can raise ValueError in the other.", "quantifier": "every image, index, angle, slope and option, exact arithmetic; filters and interpolation that treat rows and columns alike", "why_tests_cant": "All images and angles.", "anchors": ["discorpy/prep/linepattern.py: get_tilted_profile, _calc_index_range, get_cross_points_hor_lines, get_cross_points_ver_lines"]}
{"id": "C96", "title": "Fourier background estimate", "statement": "The background used by normalization_fft is, at every pixel, a fixed weighted sum of the pixels of the padded image; the weights are those of a Gaussian frequency window and depend only on the offset. It has the shape of the image, is linear in the image and commutes with transposition. A uniform image with even height and width gives a uniform background whatever sigma and padding, and normalization_fft returns it unchanged; scaling the image scales the result. With an odd width and no padding a uniform image is returned non-uniform.", "quantifier": "every image, sigma, padding width and copying padding mode; exact arithmetic and exact discrete Fourier transform", "why_tests_cant": "Finite sums over all sizes; real exponentials.", "anchors": ["discorpy/prep/preprocessing.py: _make_window, _apply_fft_filter, normalization_fft"]}
{"id": "C97", "title": "Calibrated coefficients are the best polynomial, and exact where one exists", "statement": "calc_coef_forward returns the polynomial F, among those with max(1,num_fact) coefficients, with the smallest sum over all dots of the squared deviation of F(r) from u/(a*t^2+c), where r is the distance of the dot from the centre, t its coordinate along its line, a and c belong to the parabola fitted to the line and u is its undistorted position; dots of an undistorted line through the centre are left out. calc_coef_backward does so for the inverse factors at the undistorted distances, and calc_coef_backward_from_forward for the inverse of F on the dots. Consequently, if the lines are parabolas symmetric about the centre and some polynomial moves every dot onto its undistorted line, so does the result (and it is that polynomial when there are enough distinct distances): unwarp_line_forward with it gives exactly straight lines at the undistorted positions; for the backward model the straight lines are mapped exactly onto the measured ones.", "quantifier": "every set of lines, centre, number of coefficients, option, and every exact least-squares routine", "why_tests_cant": "All grids and polynomials; external least-squares routine.", "anchors": ["discorpy/proc/processing.py: calc_coef_backward, calc_coef_forward, calc_coef_backward_from_forward; discorpy/post/postprocessing.py: unwarp_line_forward"]}
{"id": "C98", "title": "Calibration does not depend on the origin, the pixel size or the names of the axes", "statement": "Moving all dots and the given centre by the same amount leaves the results of calc_coef_forward, calc_coef_backward and calc_coef_backward_from_forward unchanged and moves the result of find_cod_fine by that amount. Multiplying all coordinates and the centre by s > 0 multiplies the undistorted positions by s, leaves the missing-line warning unchanged and divides coefficient number i by s^i, so that the corrected points are multiplied by s. Exchanging x and y (and horizontal and vertical lines) exchanges the undistorted positions and leaves the warning and the coefficients unchanged. find_cod_coarse, however, does not move along with the dots.", "quantifier": "every set of lines, centre, shift, positive scale, number of coefficients and option; at least as many distinct distances as coefficients where coefficients are compared", "why_tests_cant": "All grids, shifts and scales; external least-squares routine.", "anchors": ["discorpy/proc/processing.py: calc_coef_backward, calc_coef_forward, calc_coef_backward_from_forward, find_cod_fine, find_cod_coarse"]}
{"id": "C99", "title": "Rows and columns are recovered whatever the order of the dots", "statement": "If the dots form rows in which neighbours are closer than num_dot_miss*dot_dist and within ratio*dot_dist of the given slope, no two dots of different rows pass that test for each other, and no row is shorter than the fraction accepted_ratio of the longest, then group_dots_hor_lines returns exactly these rows, ordered by height, whatever the order in which the dots are given; group_dots_ver_lines does so for columns. A sufficient condition is that every dot is within e of a line of the given slope, 2e is below the tolerance and the lines are apart by at least the tolerance plus 2e. On an undistorted grid with at least four rows and columns both groupings succeed, find_cod_coarse returns the middle of the second cell (not of the grid) and calc_coef_backward / calc_coef_forward return the identity, 1 followed by zeros.", "quantifier": "every order of the dots, number of rows and dots per row, slope, spacing and tolerances; every sorting routine, exact fits", "why_tests_cant": "All permutations of all grids.", "anchors": ["discorpy/prep/preprocessing.py: group_dots_hor_lines, group_dots_ver_lines; discorpy/proc/processing.py: find_cod_coarse, calc_coef_backward, calc_coef_forward"]}
{"id": "C100", "title": "A generated dot pattern calibrates to the identity", "statement": "The points found by get_points_dot_pattern in 1 - make_dot_pattern(...) are the grid positions of the dots, without any deviation for an odd dot size and all shifted by the same -(size//2)/area for an even one, if the dot size is below the distance. With at least four rows and columns, grouping them gives the rows and columns of the pattern and the calibration gives the identity model. A dot size equal to the distance passes the check 'Dot size must be smaller than the dot-distance' of make_dot_pattern, but then all dots touch and a single point is found.", "quantifier": "every image size, dot size, distance, margin, every order of labels, every binarisation and option", "why_tests_cant": "All sizes; connected components of arbitrary images.", "anchors": ["discorpy/util/utility.py: make_dot_pattern, make_circle_mask; discorpy/prep/preprocessing.py: get_points_dot_pattern, group_dots_hor_lines, group_dots_ver_lines; discorpy/proc/processing.py: find_cod_coarse, calc_coef_backward, calc_coef_forward"]}
{"id": "C101", "title": "Text metadata written by hand", "statement": "load_metadata_txt returns the numbers which are the last words of the lines of the file, in order, whatever precedes them, whatever white space separates the words and however the lines end (LF, CR LF, CR, with or without an end of the last line). Fewer than two lines raise IndexError; an empty or blank line raises IndexError and a line whose last word is not a number raises the error of float, whatever follows.", "quantifier": "every text, path and file system", "why_tests_cant": "All texts; line ends and separators.", "anchors": ["discorpy/losa/loadersaver.py: load_metadata_txt"]}
{"id": "C102", "title": "Image files round trip", "statement": "After save_image of two-dimensional data to a .tif or .tiff file, load_image on the returned path gives the data as float32, whatever their type and the options are; data of shape (h, w, c) with c < h and c < w come back as the mean over the channels; uint8 data saved to a .png file come back unchanged. load_image writes nothing and raises ValueError for everything that is not an image file.", "quantifier": "every image, path, file system, overwrite and average option", "why_tests_cant": "All images and states of the file system.", "anchors": ["discorpy/losa/loadersaver.py: save_image, load_image"]}
{"id": "C103", "title": "JSON metadata in any layout, and files that were cut off", "statement": "load_metadata_json returns the values of xcenter, ycenter and list_fact of any JSON object in the file, whatever the white space, the line ends, the order and spelling of its members and whatever other members it has; the last of several members with the same name counts. A missing name raises KeyError, a file that is not an object TypeError. A file cut anywhere before the closing brace raises ValueError: every proper beginning of a file written by save_metadata_json, and what save_metadata_json leaves behind when it fails on a coefficient it cannot encode. A text file of save_metadata_txt that was cut at a line end, in contrast, loads without complaint with fewer coefficients.", "quantifier": "every object, layout, path, file system and point of cutting", "why_tests_cant": "All texts and all their beginnings.", "anchors": ["discorpy/losa/loadersaver.py: save_metadata_json, load_metadata_json, save_metadata_txt, load_metadata_txt"]}
{"id": "C104", "title": "Curved rows and columns of dots are recovered", "statement": "Seen in the frame turned by the angle of the slope, let the rows of a set of dots, given in any order, lie on polynomials of the fitted order, with neighbours at most (num_dot_miss + 1/2) line_dist apart along x and all dots of other rows farther than ratio * line_dist from the polynomial. If the dots around the middle of the x-range form, row by row, more than two and more than poly_order dots that the straight-line grouping keeps apart, and no row is too short for accepted_ratio, then group_dots_hor_lines_based_polyfit returns exactly these rows, complete and ordered along x, in the order of their mean y, whatever the overlap ratio. The only rows dropped are those whose median y differs from that of the row before by at most line_dist / 10; if all consecutive medians are that close nothing is dropped. The same holds for columns.", "quantifier": "every set of dots, order of dots, slope, distance, ratio, order of the polynomials and overlap", "why_tests_cant": "All rows, polynomials and orders of the dots; the search loop runs any number of times.", "anchors": ["discorpy/prep/preprocessing.py: group_dots_hor_lines_based_polyfit, group_dots_ver_lines_based_polyfit, _get_nearby_hor_points_iter, _get_nearby_ver_points_iter"]}
{"id": "C105", "title": "Loading never writes and says when there is no file", "statement": "load_image, load_hdf_file, load_hdf_object, get_hdf_information, find_hdf_key, load_metadata_txt, load_metadata_json and load_python_list leave the file system as it is, whatever their arguments and outcome. If nothing exists at the path, each raises ValueError; a directory raises ValueError or, for the listing, metadata and list functions, OSError.", "quantifier": "every path, file system, key, index and option", "why_tests_cant": "All file systems and arguments.", "anchors": ["discorpy/losa/loadersaver.py: load_image, load_hdf_file, load_hdf_object, get_hdf_information, find_hdf_key, load_metadata_txt, load_metadata_json, load_python_list"]}
{"id": "C106", "title": "Where figures are written", "statement": "save_plot_image, save_residual_plot and save_plot_points with an extension which the plotting library does not support raise ValueError and write or change no file. With overwrite=True and a name without extension (also names that only start with dots), they return the path asked for, but the picture is in the file with .png behind the name stripped of the dots at its end, and no other file is written or changed.", "quantifier": "every path, file system, set of supported formats", "why_tests_cant": "All names and states of the file system.", "anchors": ["discorpy/losa/loadersaver.py: save_plot_image, save_residual_plot, save_plot_points"]}
{"id": "C107", "title": "Rounding errors of the correction are bounded", "statement": "In double precision (without overflow) a point corrected by unwarp_line_forward differs in each coordinate from the point of the radial model by at most (7n + 3) 2^-51 (|c| + M (sum |a_i| M^i + 2^-500)), where a_0 .. a_(n-1) are the coefficients (n <= 1000), c is the coordinate of the centre and M the distance of the point from the centre or 1 if that is larger. For detectors up to 65536 pixels, ten coefficients and distortion factors up to 4 this is below 2^-26 of a pixel. unwarp_image_backward samples at positions that differ from the clipped positions of the model by this bound plus the rounding to single precision, 2^-24 of the image size, and with linear interpolation the pixels differ by at most the sum of these bounds times the largest difference between neighbouring pixels.", "quantifier": "every line, image, centre and list of at most 1000 coefficients", "why_tests_cant": "Rounding errors of all inputs.", "anchors": ["discorpy/post/postprocessing.py: unwarp_line_forward, unwarp_image_backward"]}
{"id": "C108", "title": "The documented chain on a generated dot pattern", "statement": "Take the picture 1 - make_dot_pattern(height, width, dot_distance, dot_size, margin) with dots that do not touch. If at least two dots lie strictly inside the region of interest of the given ratio, calc_size_distance returns the number of pixels of one dot and dot_distance; dots cut by the edge of the region, in any way, have no influence. If two dots lie there along an axis and the projections are highest at the middle angle, calc_hor_slope and calc_ver_slope return 0. Selecting dots by that size (any ratio >= 0) or by that distance (0 < ratio <= 1) changes no pixel. Passing the measured values on to group_dots_hor_lines and group_dots_ver_lines with the image gives the rows and columns of the pattern, and calibrating these gives the identity.", "quantifier": "every picture size, distance, dot size, margin, region of interest and setting of the steps", "why_tests_cant": "All pattern geometries, including dots cut by the region of interest.", "anchors": ["discorpy/prep/preprocessing.py: calc_size_distance, calc_hor_slope, calc_ver_slope, select_dots_based_size, select_dots_based_distance, group_dots_hor_lines, group_dots_ver_lines; discorpy/util/utility.py: make_dot_pattern; discorpy/proc/processing.py: find_cod_coarse, calc_coef_backward, calc_coef_forward"]}
{"id": "C109", "title": "Correction treats both axes alike", "statement": "Exchanging x and y of the points and of the centre exchanges x and y of the result of unwarp_line_forward and unwarp_line_backward, and unwarp_image_backward of the transposed image about the transposed centre is the transposed result; correct_perspective_line and correct_perspective_image do the same with exchanged coefficients. These hold exactly, with whatever rounding, for every interpolation that treats the axes alike. Mirroring points and centre mirrors the result. For unwarp_image_forward it holds if no two pixels land on the same one, and can fail otherwise, since the later pixel in row order wins.", "quantifier": "every line, image, centre, coefficients and rounding", "why_tests_cant": "All images and roundings.", "anchors": ["discorpy/post/postprocessing.py: unwarp_line_forward, unwarp_line_backward, unwarp_image_backward, unwarp_image_forward, correct_perspective_line, correct_perspective_image"]}
{"id": "C110", "title": "Correcting a photograph recovers the scene", "statement": "Let a lens move scene point q to D(q), with D the radial model of the coefficients (or the perspective of eight coefficients), and let the picture be the brightness at the pixel positions. Then each pixel of unwarp_image_backward (correct_perspective_image) differs from the scene at this pixel by at most the largest change of brightness over one pixel, plus that change times the rounding errors of the position, provided the scene point reached the detector; in smooth pictures the first term is a quarter of the bend of the brightness. Calibrating with a target seen through the lens (calc_coef_backward, under the conditions of exactness of C97) and correcting any other picture taken through it has the same bound.", "quantifier": "every scene, picture size, centre, coefficients, pixel; double precision or exact positions", "why_tests_cant": "All scenes and lenses; the purpose of the library.", "anchors": ["discorpy/post/postprocessing.py: unwarp_image_backward, correct_perspective_image; discorpy/proc/processing.py: calc_coef_backward"]}
{"id": "C111", "title": "Corrections whose radius increases do not fold", "statement": "If r F(r) increases with r up to the largest distance M from the centre (for example if a_0 > 2|a_1|M + 3|a_2|M^2 + ..., or if a_0 > 0 and the other coefficients are not negative), unwarp_line_forward moves points along their rays without reaching the centre, keeps the order of distances, keeps up and down and left and right along columns and rows, and never maps two points to one; unwarp_image_backward reads each column of the picture from top to bottom and each row from left to right; and unwarp_chunk_slices_backward returns exactly the rows of the corrected projections. Where r F(r) takes a value twice, two points become one.", "quantifier": "every model with increasing radius, line, image, volume, centre and range of slices", "why_tests_cant": "All models, points and images.", "anchors": ["discorpy/post/postprocessing.py: unwarp_line_forward, unwarp_image_backward, unwarp_chunk_slices_backward"]}
{"id": "C112", "title": "Grouping depends neither on the origin nor on the unit of length", "statement": "If all points are moved by the same vector and all lengths are multiplied by s > 0 (a region of interest cut elsewhere, a photograph at another resolution), and dot_dist and residual are given in the new unit, then group_dots_hor_lines, group_dots_ver_lines, remove_residual_dots_hor and remove_residual_dots_ver return the same lines with the same dots in the same order, moved and scaled likewise, or raise the same error.", "quantifier": "every list of points, slope, dot distance, tolerance, number of missing dots, accepted ratio and residual; every origin and positive scale; every sorting by comparison and every least-squares fit", "why_tests_cant": "All point sets, origins and scales; the fit need not be unique.", "anchors": ["discorpy/prep/preprocessing.py: group_dots_hor_lines, group_dots_ver_lines, remove_residual_dots_hor, remove_residual_dots_ver, _check_dot_on_line"]}
{"id": "C113", "title": "Calibrating on a tilted grid flattens the plane", "statement": "A camera with any projective map photographs a plane carrying a grid of dots. From the dots found on each row and column (at least two per line, the others may be missing, any order) generate_source_target_perspective_points returns as source points the images of all points of the grid, also of the missing ones, and as target points a rectangular grid (a square one if equal_dist). calc_perspective_coefficients on them yields coefficients that move every point of the photographed plane, not only the dots, to its place in the flat plan (mapping 'forward', correct_perspective_line), or back ('backward'); and correct_perspective_image with the backward coefficients shows the brightness of the plane laid out flat up to L pixels' worth of interpolation, L the steepness of the photograph.", "quantifier": "every invertible 3 x 3 camera that sees the grid, every grid size from 2 x 2, every selection of visible dots, all options, every brightness of the plane and image size up to 2^24 + 1", "why_tests_cant": "All cameras, grids, missing dots and scenes.", "anchors": ["discorpy/proc/processing.py: generate_source_target_perspective_points, regenerate_grid_points_linear, generate_undistorted_perspective_lines, calc_perspective_coefficients; discorpy/post/postprocessing.py: correct_perspective_line, correct_perspective_image"]}
{"id": "C114", "title": "Rounding errors of the perspective correction are bounded", "statement": "In double precision (without overflow) each coordinate (a x + b y + c) / (g x + h y + 1) computed by correct_perspective_line differs from the exact value q by at most 2^-48 (|a x| + |b y| + |c| + 2^-1000 + |q| (|g x| + |h y| + 1)) / |g x + h y + 1| + 2^-1074, provided the denominator is at least 2^-48 of its terms; on detectors of up to 65536 pixels with a denominator of at least 1/2 this is below 2^-26 of a pixel. correct_perspective_image samples at positions that differ from the clipped exact positions by this bound plus the rounding to single precision; with linear interpolation its pixels differ by at most the sum of these bounds times the largest difference between neighbouring pixels, and a scene photographed through the perspective is recovered up to this and the interpolation error.", "quantifier": "all points, all eight coefficients, all images up to 2^24 + 1 pixels in either direction, exact and double arithmetic", "why_tests_cant": "All coefficients and points; rounding errors show only for special operands.", "anchors": ["discorpy/post/postprocessing.py: correct_perspective_line, _generate_perspective_map, correct_perspective_image"]}
{"id": "C115", "title": "Corrections do not amplify noise and keep defects local", "statement": "If one photograph is nowhere brighter than another by more than D, then the same holds after unwarp_image_backward and after correct_perspective_image (order 1, same coefficients); so the corrections are monotone, and photographs that differ by at most D differ by at most D after the correction. A defective pixel changes only those pixels of the result whose clipped position in the photograph, by the model, is less than one pixel (plus the rounding errors of C107 and C114) away from it in both directions.", "quantifier": "all pairs of images of equal size up to 2^24 + 1 in either direction, all centres and coefficients, any rounding of the positions (for the locality: exact or double)", "why_tests_cant": "All images, disturbances, coefficients and roundings.", "anchors": ["discorpy/post/postprocessing.py: unwarp_image_backward, correct_perspective_image"]}
{"id": "C116", "title": "Automatic padding keeps every pixel of the photograph when the lens model is monotone", "statement": "With pad=True the margins are chosen from the four corners only. If the centre is inside the image, the fitted forward model never turns points around, and its factor either grows with the radius over the image (barrel) or never exceeds one (pincushion), then the corrected position of EVERY pixel of the photograph, not only of the corners, lies in the padded frame, less than one pixel outside at the top and left and less than two at the bottom and right. Without such a condition this is false: for a proper lens whose factor rises and falls back to one at the corners, no margin is added although the middle of an edge moves five pixels out of a 101 x 101 image.", "quantifier": "all image sizes, centres inside the image, coefficient lists and fitted forward models satisfying the stated condition, and all pixels of the image", "why_tests_cant": "A test looks at the padding of one image; the claim is about every pixel under every monotone model, and the failing class (moustache distortion) is one no shipped test uses.", "anchors": ["discorpy/util/utility.py: _calc_pad, unwarp_color_image_backward, unwarp_image_backward_cv2"]}
{"id": "C117", "title": "Machine arithmetic neither overflows nor leaves the model", "statement": "Run on binary64 machine numbers, unwarp_line_forward and unwarp_image_backward (centre and points at most 2^20, images up to 2^20 pixels in either direction, up to 32 coefficients of at most 2^200) and correct_perspective_line and correct_perspective_image (coefficients at most 2^100, denominator not lost to cancellation) produce finite numbers only, never an overflow or NaN; the result is within the bounds of C107 and C114 of the model's exact value, and the positions sampled lie in the image. Without the condition on the denominator the position can be NaN, which clipping does not repair.", "quantifier": "all finite machine numbers up to the stated magnitudes, all lists of points and all image sizes up to 2^20, any correctly rounded power function", "why_tests_cant": "There are 2^64 values per input; overflow and NaN appear only for particular combinations of them.", "anchors": ["discorpy/post/postprocessing.py: unwarp_line_forward, unwarp_image_backward, correct_perspective_line, correct_perspective_image"]}
{"id": "C118", "title": "The lines of a clean line pattern are all found, and nothing else", "statement": "If the brightness along a profile is a background with lines of one symmetric, falling cross-section, further apart than half a line width plus the search radius, and the lines stand out against the sensitivity, then get_local_extrema_points reports exactly the samples nearest to the lines in the searched range, one for each line (two neighbouring ones only for a line midway between them), and refined positions stay within half a sample of the line. With the default options, every point of get_cross_points_hor_lines and get_cross_points_ver_lines on such an image then lies on a profile, at most half a sampling step beyond a line and at most half a step and sqrt 2 before it, and every line crossing the searched part of a profile is reported so.", "quantifier": "all profiles and images (4 to 32767 pixels) showing such lines, all cross-sections, positions, slopes, radii and sensitivities, with and without sub-pixel refinement", "why_tests_cant": "All line positions relative to the pixels, all cross-sections and slopes.", "anchors": ["discorpy/prep/linepattern.py: get_local_extrema_points, get_cross_points_hor_lines, get_cross_points_ver_lines, get_tilted_profile, locate_subpixel_point"]}
{"id": "C119", "title": "How a volume is cut into chunks does not matter", "statement": "unwarp_chunk_slices_backward with equal start and stop index returns that row of the corrected projections, whatever the coefficients. When rows are sampled in the order of their indices, any chunk equals the same slices of any larger chunk, and processing a volume from top to bottom with any choice of chunk boundaries gives, chunk after chunk, exactly the rows of the corrected projections. The order holds in exact arithmetic when the corrected radius increases, and in double precision when a_0 exceeds 2|a_1|M + 3|a_2|M^2 + ... by 2^-25 on a detector of radius M; without it the result can depend on the cut. Correcting some of the projections, by slice or by chunk, gives those projections of the corrected volume, and fails the same way.", "quantifier": "all volumes (up to 32767 rows), centres, coefficients, chunk boundaries and projection ranges, in exact and double-precision arithmetic; the last part for any number type and interpolation", "why_tests_cant": "All cuts of all volumes; the crop taken for each chunk depends on its first and last row.", "anchors": ["discorpy/post/postprocessing.py: unwarp_chunk_slices_backward, unwarp_slice_backward, unwarp_image_backward"]}
{"id": "C120", "title": "Calibration does not amplify measurement errors", "statement": "For the coefficients F of calc_coef_forward and every other model P with as many coefficients, the sum over the dots of (F(r)-P(r))^2 plus the squared deviation of F from the dots equals the squared deviation of P from the dots; the same holds for calc_coef_backward and for the inverse of calc_coef_backward_from_forward. So if the true model P moves no dot further from its straight line than e times the dot's own distance, the root mean square of F-P over the dots is at most e, and at every distance x from the centre |F(x)-P(x)| is at most e times the square root of the number of dots times the sum of the absolute Lagrange weights at x of any nodes chosen among the dots' distances.", "quantifier": "every set of lines, centre, number of coefficients, option, model P, error e, distance x, and every exact least-squares routine", "why_tests_cant": "All measurement errors and all models; tests compare with one model and one noise.", "anchors": ["discorpy/proc/processing.py: calc_coef_forward, calc_coef_backward, calc_coef_backward_from_forward"]}
{"id": "C121", "title": "The order of the dots within their lines does not matter", "statement": "Reordering the dots inside each line, in any way, leaves unchanged: the results, including the exceptions, of find_cod_coarse, find_cod_fine, find_cod_bailey, find_center_based_vanishing_points, regenerate_grid_points_parabola, regenerate_grid_points_linear, generate_undistorted_perspective_lines and generate_source_target_perspective_points; the positions of the straight lines; and, wherever the dots determine them, the coefficients of calc_coef_forward, calc_coef_backward and calc_coef_backward_from_forward. correct_perspective_effect returns the same dots in the new order.", "quantifier": "every set of lines each with enough dots at different positions to determine its parabola (or its straight line), every reordering, centre, option, and every exact fitting routine", "why_tests_cant": "All orders of all dots; the tests always give the dots from left to right.", "anchors": ["discorpy/proc/processing.py: find_cod_coarse, find_cod_fine, find_cod_bailey, calc_coef_forward, calc_coef_backward, calc_coef_backward_from_forward, regenerate_grid_points_parabola, regenerate_grid_points_linear, generate_source_target_perspective_points, correct_perspective_effect, find_center_based_vanishing_points"]}
{"id": "C122", "title": "Saving beside other processes, through crashes, and over any history", "statement": "Each save function (text, JSON and pickle metadata, HDF file and stream, image, the three figures) takes several file-system steps: it looks for the folder, makes missing folders, looks for a free name, opens (truncates) the file and fills it. Run on its own, step by step, it ends with the result and files of the call. For any number of processes that save at the same time, under every interleaving of their steps and stopped at every moment (killed processes, crash of the machine), every file and folder that existed keeps its content unless some call was given overwrite=True and that very path. A call that shares no possible name and no folder-name clash with the others ends, under every schedule that gives it enough turns, with the result it has on its own and with the same files; at every moment each name it may use is as before, or is the name it picked and holds one of the contents it writes there in turn, and each of those moments exists. A JSON metadata file is at every moment as before, complete, or rejected by load_metadata_json. In every history of calls, the file that a call returned keeps what was written, and no later call returns it, unless overwrite=True names it. Three beliefs are false and refuted: overwrite=False does not protect two concurrent calls for the same path from each other (both return it, one content is lost); overwriting is not atomic (at some moment the old content is gone and the file is empty); a text metadata file cut off by a crash can load without error with coefficients missing.", "quantifier": "all save functions, names, contents and overwrite flags; all file systems; any number of concurrent calls; all interleavings and all crash points; all ways in which the text reaches the file in pieces; all histories of calls", "why_tests_cant": "Tests run one call at a time and to its end. Interleavings, crash points and histories are unbounded, and the losing schedule of the race is one among very many.", "anchors": ["discorpy/losa/loadersaver.py: _create_folder, _create_file_name, save_metadata_txt, save_metadata_json, save_python_list, save_hdf_file, open_hdf_stream, save_image, save_plot_image, save_residual_plot, save_plot_points, load_metadata_json, load_metadata_txt"]}
{"id": "C123", "title": "The calibration treats left and right, and up and down, alike", "statement": "If a calibration photograph is mirrored left to right, upside down or both, so that the coordinates of all dots and of the centre change sign, and the rows or the columns are possibly listed from the other end, then: calc_coef_forward, calc_coef_backward and calc_coef_backward_from_forward return the same coefficients wherever the dots determine them, and the positions of the straight lines they are fitted to, and the missing-line warning, are the mirrored ones; find_cod_coarse returns the mirrored centre, and so does find_cod_bailey for every number of iterations. Listing lines from the other end needs one line nearest to the centre (for the coefficients) or one main change of curvature (for the centre): with two rows equally near, the order in which rows are listed changes the result.", "quantifier": "every set of rows and columns whose dots determine a parabola each, every centre, number of coefficients, option, choice of mirrored axes and of reversed lists, and every exact fitting routine and every odd storage rounding", "why_tests_cant": "All photographs and both choices per axis; symmetry is a relation between two runs, on all inputs.", "anchors": ["discorpy/proc/processing.py: calc_coef_forward, calc_coef_backward, calc_coef_backward_from_forward, find_cod_coarse, find_cod_bailey"]}
{"id": "C124", "title": "The measurements on the dots follow the photograph however it is held", "statement": "If a binary image of dots is turned upside down, mirrored, transposed, given a blank frame, or any sequence of these, then: get_points_dot_pattern returns the centres of the same dots at their new places (in some order), check_num_dots gives the same answer, and selecting dots by size, by axis ratio or by distance gives the original selection moved in the same way. Turning, mirroring and transposing (without a frame) leave the result of calc_size_distance unchanged, including the error for a single dot, and binarization without denoising of the turned photograph is the turned binarization. In particular none of these results depends on how the dots are numbered.", "quantifier": "every binary (or non-negative 16-bit) image of any size and content, every sequence of motions and frame widths, every numbering of the dots, every size, distance and ratio", "why_tests_cant": "All images, all sequences of motions and all numberings; invariance is a relation between two runs.", "anchors": ["discorpy/prep/preprocessing.py: get_points_dot_pattern, check_num_dots, select_dots_based_size, select_dots_based_ratio, select_dots_based_distance, calc_size_distance, binarization"]}
{"id": "C125", "title": "A photograph of a dot target calibrates the same however it was held", "statement": "Take a binarised photograph of a dot target, and the same photograph turned upside down, mirrored, transposed and given black borders in any order and any number of times. If the dots of the first lie in clear rows and clear columns, then the whole calibration chain gives the same answer for both: get_points_dot_pattern finds the moved dots, group_dots_hor_lines and group_dots_ver_lines find the moved rows and columns (rows become columns when the coordinates were exchanged an odd number of times; slopes change sign with each mirroring), calc_undistor_intercept warns in the same cases, and calc_coef_forward, calc_coef_backward and calc_coef_backward_from_forward return the same coefficients when they are given the moved centre.", "quantifier": "all binary images with at least one dot and one background pixel, all labellings of both images, all sequences of motions and frames, all sort routines, slopes, dot distances, ratios, miss counts and acceptance ratios, all rows and columns that are clear for them, all centres whose nearest line is unique, all fitting and minimising routines that meet their specification, all odd storage roundings, both optimisation settings and all thresholds and numbers of coefficients", "why_tests_cant": "A test compares two photographs for one motion. The claim couples five functions over all motions and all targets.", "anchors": ["discorpy/prep/preprocessing.py: get_points_dot_pattern, group_dots_hor_lines, group_dots_ver_lines; discorpy/proc/processing.py: calc_undistor_intercept, calc_coef_forward, calc_coef_backward, calc_coef_backward_from_forward"]}
{"id": "C126", "title": "Correcting a photograph does not depend on how it was held", "statement": "Turn a photograph upside down, mirror it, transpose it, in any order and any number of times, and move the centre of distortion accordingly. Then unwarp_image_backward (default interpolation) of the moved photograph is the moved corrected photograph: exactly so when positions are stored exactly, and in double precision with single-precision positions up to the sum of the rounding errors of both runs. Together with C125: calibrating a moved target and correcting a moved photograph with the result gives the moved corrected photograph.", "quantifier": "every image of every size (up to 2^24+1 a side for the rounded claim), every sequence of motions, every centre and list of coefficients; for the calibrated claim every target with clear rows and columns", "why_tests_cant": "A relation between two runs over all images and motions; the rounded version bounds an error for every image.", "anchors": ["discorpy/post/postprocessing.py: unwarp_image_backward; discorpy/prep/preprocessing.py: get_points_dot_pattern, group_dots_hor_lines, group_dots_ver_lines; discorpy/proc/processing.py: calc_coef_backward"]}
{"id": "C127", "title": "A corrected slice is as good as the corrected pictures", "statement": "unwarp_slice_backward applied to a stack of pictures gives, in each row, the row of the corrected picture (unwarp_image_backward, default interpolation) up to a stated single-precision error, and likewise the slice that unwarp_chunk_slices_backward gives for the same index. It never leaves the range of the pixel values when the limits are single-precision numbers (it can otherwise: a counterexample is given). A brighter stack gives a brighter slice, stacks differing by at most D give slices differing by at most D plus the rounding of the values, and when every picture shows a scene through the modelled lens each row of the slice shows the scene within the stated bound.", "quantifier": "every stack of pictures up to 32767 rows and 2^24+1 columns, every centre, coefficients and index, exact and double-precision arithmetic; every scene with bounded steepness for the last claim", "why_tests_cant": "Bounds for all images and coefficients at once, between functions that compute in different precisions; a test sees one image.", "anchors": ["discorpy/post/postprocessing.py: unwarp_slice_backward, unwarp_image_backward, unwarp_chunk_slices_backward"]}
{"id": "C128", "title": "Four pairs of points determine the perspective correction, both ways and however the photograph is held", "statement": "For any four pairs of points, no three of them on a line on either side, calc_perspective_coefficients returns coefficients which reproduce all four pairs exactly and which are the only projective map doing so, unless that map sends the pixel (0, 0) to infinity, in which case no coefficients reproduce the pairs. The coefficients of the two values of mapping undo each other on every point where the first is defined. Giving the points in other coordinates (origin, units, axes, separately for source and target) gives the same map in these coordinates. Turning, mirroring or transposing the photograph together with the points gives the moved corrected photograph: exactly with exactly stored positions, and within the sum of the rounding bounds of C114 in double precision.", "quantifier": "every four pairs in general position, every longer list of consistent pairs containing such four, every list of lines, every invertible affine change of coordinates, every photograph and sequence of motions", "why_tests_cant": "Existence and uniqueness over all configurations, and relations between two runs; tests try a few points.", "anchors": ["discorpy/proc/processing.py: calc_perspective_coefficients; discorpy/post/postprocessing.py: correct_perspective_line, correct_perspective_image"]}
{"id": "C129", "title": "The centre of distortion follows the shape of the pixels and the exchange of the axes", "statement": "If all row coordinates of the grouped dots are multiplied by a nonzero factor and all column coordinates by another (pixels of another size or shape, a mirrored photograph), then the centres returned by find_cod_coarse, find_cod_bailey (any number of iterations), find_center_based_vanishing_points and the start of find_center_based_vanishing_points_iteration are multiplied by the same factors, and a failure stays the same failure. If rows and columns are exchanged (a transposed photograph), find_cod_bailey and both constructions from vanishing points return the exchanged centre.", "quantifier": "every pair of nonzero factors, every list of horizontal and vertical lines with dots at three positions at least, every number of iterations, every least-squares, root and sorting routine", "why_tests_cant": "A relation between two runs over all grids and factors; tests use one grid in one orientation.", "anchors": ["discorpy/proc/processing.py: find_cod_coarse, find_cod_bailey, find_center_based_vanishing_points, find_center_based_vanishing_points_iteration"]}
{"id": "C130", "title": "Noise, exposure and contrast do not change the dots that are found", "statement": "binarization gives the same binary picture, or the same failure, for two photographs of the same scene (a) if their pixels differ by at most e and the thresholds, given or found automatically, stay clear of the compared values by e, with or without the median filter; (b) if one is the other under a strictly increasing change of brightness and the threshold changes with it; (c) without the median filter, if one is the negative of the other, no pixel is exactly at the threshold and not exactly half of the pixels are bright. get_points_dot_pattern then returns the same dot centres. With the median filter the negative of a photograph need not give the same picture.", "quantifier": "every photograph, noise, brightness change and threshold, every rank filter, threshold finder, labelling and morphological operation that only looks at the pixels of the picture", "why_tests_cant": "A relation between two runs over all photographs and all noise; a test compares one photograph with itself.", "anchors": ["discorpy/prep/preprocessing.py: binarization, _invert_dots_contrast, _select_roi, get_points_dot_pattern"]}
{"id": "C131", "title": "A padded photograph, gray or coloured, shows the scene in the larger frame", "statement": "If a photograph, gray or coloured, records a scene through a lens with the given model, then unwarp_color_image_backward with any accepted padding returns a picture enlarged by the padding in which pixel (i, j) shows the scene point (i - top, j - left), in every channel, up to the change of brightness over one pixel and the rounding of stored positions, wherever that point reached the detector; the values used for padding do not leak into these pixels. With automatic padding, a monotone model and its exact inverse, every pixel of the photograph shows a scene point whose place is in the enlarged frame.", "quantifier": "every photograph and number of channels, every lens model and centre, every padding and padding mode, every scene with bounded change of brightness", "why_tests_cant": "Relates a real scene to the result for all scenes and paddings; tests compare single arrays.", "anchors": ["discorpy/util/utility.py: unwarp_color_image_backward, _calc_pad"]}
{"id": "C132", "title": "Points corrected with the backward model are as accurate as the minimiser and agree with the corrected picture", "statement": "For every line of measured points, unwarp_line_backward returns for each measured point p a point q on the ray of p such that distorting q with the model misses p by exactly what the numerical minimiser left over; a minimiser that never returns a worse value than at its start never makes a point fit the model worse than uncorrected. If the distorted radius rises at least k times as fast as the radius up to M (for instance with k = a_0 - 2|a_1|M - 3|a_2|M^2 - ...), q is no further from the true undistorted point than this remainder divided by k. If a photograph records a scene through the lens, q marks in the scene, and in the picture corrected by unwarp_image_backward, the brightness that p marks in the photograph, up to the remainder times the steepness of the photograph, the change of the scene between q and the pixel, and the error of the picture itself. A negative radius returned by the minimiser is not noticed, and then the point may be anywhere on its line through the centre.", "quantifier": "every list of lines of points, centre, list of coefficients and behaviour of the minimiser with a non-negative result; every photographed scene with bounded change of brightness", "why_tests_cant": "The result depends on an iterative minimiser and real-valued points; tests compare a few points with a tolerance.", "anchors": ["discorpy/post/postprocessing.py: unwarp_line_backward, _func_diff, unwarp_image_backward"]}
{"id": "C133", "title": "Correcting first the lens and then the perspective recovers a tilted plane", "statement": "A plane carrying a grid of dots is photographed by a tilted camera through a distorting lens whose distorted radius increases. If the minimiser finds the radii, unwarp_line_backward gives exactly the lines the camera would have shown without the lens; from them generate_source_target_perspective_points and calc_perspective_coefficients give a rectangular plan and the coefficients for it; and applying unwarp_image_backward and then correct_perspective_image to any photograph taken with this lens and camera shows the plane laid out flat: each pixel differs from the plane by at most the error of the first correction (C110) and the change of the view around the point, over the pixels that can contribute to it, wherever those were on the detector.", "quantifier": "every projective camera, lens model with increasing radius, centre, grid of at least 2 x 2 lines with dots missing and in any order, every photographed brightness of bounded steepness, every pixel", "why_tests_cant": "A chain of five functions about all cameras, lenses and scenes; tests run single functions on single arrays.", "anchors": ["discorpy/post/postprocessing.py: unwarp_line_backward, unwarp_image_backward, correct_perspective_image; discorpy/proc/processing.py: regenerate_grid_points_linear, generate_source_target_perspective_points, calc_perspective_coefficients"]}
{"id": "C134", "title": "Whatever the lens, a centred target gives the true centre of distortion", "statement": "Take a photograph whose lines are symmetric under a half turn about the centre of distortion: the first line is turned into the last, and so on (for example a regular target of any spacing, skew and rotation, centred on the optical axis and seen through any rotationally symmetric lens, not only a polynomial or parabolic one). If the number of lines is even in both directions, the lines of one half all bend to the same side and the middle lines are not parallel, then find_cod_coarse returns that centre exactly, although it only averages two least-squares parabolas; and if the lines of one half also pass the centre on the same side, find_cod_bailey keeps it for every number of iterations, without dividing by zero. With an odd number of lines the middle line is straight, the first of two equal sign changes is taken and find_cod_coarse can be half a line spacing off (shown).", "quantifier": "every magnification function of the radius, every centre, every regular or merely symmetric pattern with dots in any order on each line, every number of iterations, every correct least-squares routine", "why_tests_cant": "Tests use one polynomial lens and one grid and accept a tolerance; the claim is exact, for every lens function and every symmetric pattern.", "anchors": ["discorpy/proc/processing.py: find_cod_coarse, find_cod_bailey"]}
{"id": "C135", "title": "Small measuring errors move the centre of distortion only a little", "statement": "Let every line have at least three separate dots, every direction at least two lines, no fitted line be exactly straight, and the middle lines not be parallel. Then find_cod_coarse depends continuously on the dots: for every wanted accuracy e there is a tolerance d such that, whenever every dot is off by at most d along each axis, find_cod_coarse still succeeds and its result moves by at most e. The same holds for find_cod_bailey with any number of iterations if, at every centre it starts an update from, the curvature of the lines does change along the axis. Without the first condition it is false (shown): when the middle line is exactly straight, as on every centred target with an odd number of lines, arbitrarily small errors make find_cod_coarse jump by more than a line spacing.", "quantifier": "every set of lines and dots, every displacement of all the dots at once within the tolerance, every accuracy, every number of iterations, every correct least-squares routine", "why_tests_cant": "Tests add one sample of noise to one grid; the claim is about all displacements below a tolerance and all accuracies.", "anchors": ["discorpy/proc/processing.py: find_cod_coarse, find_cod_bailey, _para_fit_hor, _para_fit_ver"]}
{"id": "C136", "title": "A slightly wrong model corrects slightly wrong", "statement": "Correct the same points or the same photograph with two models: coefficients F and centre c (the true lens), or coefficients G and centre d (what the calibration gave). Each corrected position of the two differs by at most |d - c| |1 - G(r')| + r (sum of |G_k - F_k| r^k + |d - c| sum of k |F_k| r^(k-1)), r being the larger distance from the two centres, for lists of coefficients of any lengths. So unwarp_line_forward with the wrong model misplaces a point by at most that much, and unwarp_image_backward with the wrong model, in double precision, shows the scene up to the change of brightness over one pixel, over twice that error, and rounding. The bound goes to zero with the errors of the coefficients and of the centre, uniformly over any field of view.", "quantifier": "all coefficients of both models (any numbers of them), all centres, all points and pixels, all scenes with bounded steepness, exact or double arithmetic", "why_tests_cant": "Tests correct with one perturbed model; the bound must hold for all models, all points and all pictures.", "anchors": ["discorpy/post/postprocessing.py: unwarp_line_forward, unwarp_image_backward"]}
{"id": "C137", "title": "Small measuring errors change the calibrated model and the corrected positions only a little", "statement": "Calibrate by finding the centre (with Bailey's method and any number of updates, or in any other way that depends continuously on the dots) and then the coefficients with calc_coef_backward or calc_coef_forward. Provided that every line has three separate dots, that in each direction one line is nearer to the centre than the others, that neither a straightened line nor a fitted parabola meets the centre's axis at a dot, and that the dots lie at as many distinct distances as there are coefficients, the calibration succeeds and is continuous: for every e there is a d such that moving every dot by at most d along each axis still gives a calibration, with the centre and every coefficient within e. Over any field of view, the positions corrected with the two models then differ by at most any wanted e. The nearest line is needed: with two lines equally near, arbitrarily small errors change a coefficient by more than one fifth.", "quantifier": "all targets meeting the conditions (any numbers of lines and dots), all numbers of coefficients, both values of optimizing, all thresholds, all displacements of the dots, all tolerances, all fields of view", "why_tests_cant": "Tests perturb one target in a few ways; continuity is about every small perturbation and every tolerance.", "anchors": ["discorpy/proc/processing.py: find_cod_bailey, calc_coef_backward, calc_coef_forward, _calc_undistor_intercept, _check_missing_lines"]}
{"id": "C138", "title": "Small measuring errors change the perspective model and the corrected positions only a little", "statement": "Let the pairs of source and target points have only one best perspective map (for example because some map sends every source to its target and four of the points are in general position). Then calc_perspective_coefficients, in either direction, is continuous: for every e there is a d such that changing every coordinate of every point by at most d still gives eight coefficients, each within e of the original ones. The grid of regenerate_grid_points_linear is continuous in the dots if each line has two separate dots and the fitted lines meet. The pairs themselves, as generate_source_target_perspective_points gives them for any distance, scale and optimising option, move by at most any wanted e when every dot of the lines moves by at most a suitable d, if the lines are clear: two separate dots on each, fitted lines that meet, intercepts that are not all equal, and trends of the slopes whose difference is not exactly the 1/10000 at which the routine changes its formula (there the targets do jump). And correct_perspective_line is continuous in the coefficients over any field of view that keeps a distance from the line sent to infinity, so that, from the dots to the end, the positions corrected with the two models differ by at most any wanted e.", "quantifier": "all numbers of pairs, all points with a single best map, both directions, all clear lines of dots and all options, all displacements of the points or dots, all tolerances, all fields of view, every exact least-squares solver", "why_tests_cant": "Tests perturb a few points of one target; continuity is about every small perturbation, every target and every tolerance.", "anchors": ["discorpy/proc/processing.py: generate_source_target_perspective_points, calc_perspective_coefficients; discorpy/post/postprocessing.py: correct_perspective_line"]}
