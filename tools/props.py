#!/usr/bin/env python3
"""Single source of properties.jsonl: run `python3 tools/props.py` in /verif."""
import json, os
P = []
def p(id, title, statement, quantifier, why, *anchors):
    P.append(dict(id=id, title=title, statement=statement, quantifier=quantifier,
                  why_tests_cant=why, anchors=list(anchors)))
POST="discorpy/post/postprocessing.py"; UTIL="discorpy/util/utility.py"
PROC="discorpy/proc/processing.py"; PREP="discorpy/prep/preprocessing.py"
LINE="discorpy/prep/linepattern.py"; LOSA="discorpy/losa/loadersaver.py"

# ---------------------------------------------------------------- post
p("C01","Forward unwarping of points is exactly the radial polynomial model",
  "unwarp_line_forward returns as many lines as it is given, each with as many points, and the j-th point of the i-th output line is center + F(r)*(p - center), where p is the j-th point of the i-th input line, r its distance to the center and F(r) = sum_k list_fact[k]*r^k. In particular a point on the center stays there, every other point stays on its line through the center at distance |F(r)|*r, list_fact=[1] is the identity, and the result commutes with translating points and center together and with rotating the points about the center.",
  "every list of float-typed lines, every center, every coefficient list",
  "Tests compare one 64x64 grid with a tolerance of one pixel; the identity must hold for every point, center and polynomial length.",
  POST+": unwarp_line_forward")
p("C02","Integer-typed lines are truncated by forward unwarping",
  "When a line is given as an integer array the unwarped coordinates of C01 are truncated towards zero to whole pixels (the result array inherits the dtype of the input); when it is given as float32 they are rounded to float32; hence the result for the same point values depends on the dtype and can be off by almost a whole pixel.",
  "every line, dtype, center and coefficient list; witness for the loss",
  "Tests only use float arrays; the dtype-dependence is a universally quantified claim about the store into zeros_like(line).",
  POST+": unwarp_line_forward")
p("C03","Backward unwarping of points inverts the backward model",
  "For every point for which the numerical minimiser reaches a zero of its objective, distorting the point returned by unwarp_line_backward with the backward model (center + B(r)*(q - center)) gives back the input point, provided the minimiser returned a non-negative radius; a point on the center is returned as the center; the number and order of lines and points is preserved.",
  "every list of lines, center, coefficient list and every minimiser outcome with zero objective",
  "The minimiser is external; the test uses one grid with one pixel tolerance.",
  POST+": unwarp_line_backward, _func_diff")
p("C04","Image unwarping only samples inside the image",
  "unwarp_image_backward returns an image of the same shape in which every pixel is a (bilinear, order=1) interpolation of the source at a coordinate pair that lies in [0,width-1]x[0,height-1]; hence every output value lies between the smallest and the largest pixel of the input and a constant image is returned unchanged. Holds for every rounding of the coordinate arithmetic, for images up to 2^24+1 pixels wide and high.",
  "every image of at least one pixel, every center, every coefficient list (also wildly wrong ones), every rounding of intermediate results",
  "The coordinate map is an arbitrary polynomial of the radius; tests can sample few polynomials and centers.",
  POST+": unwarp_image_backward")
p("C05","Identity coefficients leave an image unchanged",
  "With list_fact=[1.0, 0, ..., 0], unwarp_image_backward, unwarp_image_forward and unwarp_color_image_backward(pad=False) return the input image exactly (exact coordinate arithmetic, float32 casts as in the code), for every center.",
  "every image up to 2^24 pixels per side, every center, any number of trailing zero coefficients",
  "Quantifies over all images and centers, and needs exactness of the float32 cast of integer coordinates.",
  POST+": unwarp_image_backward, unwarp_image_forward", UTIL+": unwarp_color_image_backward")
p("C06","Image unwarping is linear in the image",
  "For order=1, unwarping a*M1+b*M2 gives a*unwarp(M1)+b*unwarp(M2) pixel by pixel; in particular adding an offset or scaling the intensities before or after the correction is the same.",
  "every pair of images of one shape, every a, b, center, coefficients",
  "A universally quantified algebraic law.",
  POST+": unwarp_image_backward")
p("C07","Forward image unwarping moves pixels and never fails",
  "unwarp_image_forward never indexes outside the image; each output pixel is either zero, when no input pixel is mapped to it, or equals the value of the last input pixel (in row-major order) whose clipped and rounded forward-mapped position is that pixel.",
  "every image, center and coefficient list",
  "Which source wins depends on collisions of a polynomial map; needs all maps.",
  POST+": unwarp_image_forward")
p("C08","A single unwarped slice samples the same data as the full projection",
  "For heights up to 32767, unwarp_slice_backward(mat3D, ..., index)[i][j] equals the bilinear sample of the whole projection mat3D[i] at the clipped backward-mapped position of (index, j): cropping the projection to the needed rows does not change the result.",
  "every 3D array (>=1 pixel in each dimension), center, coefficients and index (any integer)",
  "Equality of a cropped and an uncropped computation for every polynomial; tests only look at one sinogram.",
  POST+": unwarp_slice_backward")
p("C09","A chunk of slices equals the rows of the unwarped projections",
  "When the call is accepted, unwarp_chunk_slices_backward(mat3D, ..., start, stop) has depth x (stop-start+1) x width elements - the stop row is included - and element [i][k] is row start+k of unwarp_image_backward(mat3D[i], order=1, mode='reflect'), provided the backward-mapped row position is monotone in the row along each column between start and stop. Holds for every rounding of the coordinate arithmetic.",
  "every 3D array with height <= 32767, every center and coefficient list monotone along columns, every accepted start<=stop",
  "Equality of two pipelines with different cropping; the test only checks that something changed.",
  POST+": unwarp_chunk_slices_backward, _mapping, unwarp_image_backward")
p("C10","Which chunk ranges are accepted",
  "For heights up to 32767 unwarp_chunk_slices_backward raises ValueError exactly when the array has fewer than three dimensions, or start_index is outside [0,height-1], or stop_index is outside [0,height-1]. In particular stop_index=-1, which the code rewrites to height, is always rejected.",
  "every shape, start_index and stop_index",
  "The rejection of the documented-looking -1 default is a statement about all shapes.",
  POST+": unwarp_chunk_slices_backward")
p("C11","Tall detectors overflow the 16-bit row index",
  "The guarantee of C08 does not extend to all heights: because the row range is computed as a 16-bit integer there are arrays with more than 32768 rows for which unwarp_slice_backward with identity coefficients returns data of a different row.",
  "existence of an array; the positive part (C08) covers every height <= 32767",
  "Needs arrays with more than 32768 rows; no test uses them.",
  POST+": unwarp_slice_backward")
p("C12","Residuals: size, order, sign and meaning",
  "calc_residual_hor / calc_residual_ver return one [radius, residual] pair per dot, sorted by increasing radius; the pairs are a rearrangement of: radius = distance of the dot to the center, residual = Euclidean distance of the dot to the fitted straight line of its own line; residuals are >= 0, are all 0 when the dots of each line are exactly collinear (and have at least two distinct abscissae), and do not depend on the center. Without any line both raise IndexError. calc_residual_ver is calc_residual_hor with x and y exchanged.",
  "every list of lines, every center, every least-squares fit, every sorting algorithm",
  "The fit and sort are external; the claims are universally quantified geometry.",
  POST+": calc_residual_hor, calc_residual_ver")
p("C13","check_distortion decides exactly the 15% rule",
  "check_distortion returns True exactly when strictly more than 15% of the residuals are strictly greater than 1 (20*k > 3*n), also when evaluated in binary64 arithmetic for up to 2^50 dots, and raises ZeroDivisionError on an empty list.",
  "every residual list",
  "Boundary at exactly 15% for every n, in floating point.",
  POST+": check_distortion")
p("C14","Perspective correction of lines is the projective map of its 8 coefficients",
  "correct_perspective_line raises ValueError unless it is given exactly 8 coefficients; otherwise it preserves the number and order of lines and points and maps each (y,x) by the 3x3 projective matrix [[c1,c2,c3],[c4,c5,c6],[c7,c8,1]]. Where denominators do not vanish it maps collinear points to collinear points, applying it twice is the map of the matrix product, and a matrix followed by its inverse is the identity.",
  "every list of lines and every coefficient list",
  "Universally quantified projective geometry.",
  POST+": correct_perspective_line")
p("C15","Perspective correction of an image",
  "correct_perspective_image raises ValueError unless given 8 coefficients, returns an image of the same shape whose pixels are bilinear samples (order=1) of the input at the clipped projective image of the pixel, so values stay within the input range; with identity coefficients (1,0,0,0,1,0,0,0) it returns the input; with a precomputed map_index the coefficients' values are irrelevant, and passing the index map generated for an image of the same shape gives the same result as passing None; an index map whose number of points is not height*width raises ValueError, any other is sampled row by row.",
  "every image, coefficient list and index map",
  "All images and coefficients.",
  POST+": correct_perspective_image, _generate_perspective_map")
# ---------------------------------------------------------------- util
p("C16","Circle mask membership and symmetry",
  "make_circle_mask(width, ratio) is a width x width array with value 1 exactly at pixels with (i-c)^2+(j-c)^2 <= (ratio*c)^2, c = width//2, and 0 elsewhere; it is symmetric under transposition for every width, and under both flips for every odd width.",
  "every width >= 0, ratio",
  "All widths and ratios.", UTIL+": make_circle_mask", LINE+": _make_circle_mask")
p("C17","Dot-pattern image: binary, blank margins, disjoint dots",
  "When make_dot_pattern succeeds every pixel is 0 or 1; a pixel is 0 exactly when it lies in the disk of some grid dot; all pixels within the margin of the border are 1 (blank); and no pixel lies in the windows of two different dots. It raises ValueError exactly when dot_distance < dot_size (after clipping the size) or when margin is a sequence of fewer than two numbers.",
  "every height, width, dot distance, dot size and margin (scalar or pair) with images at least 8 pixels",
  "Combinatorial statement over all parameters.", UTIL+": make_dot_pattern, make_circle_mask")
p("C18","Line-pattern image: exact set of dark pixels",
  "make_line_pattern gives 0 exactly at pixels belonging to one of the horizontal stripes (rows margin+k*distance .. +line_size-1, restricted to the columns between the first and the last vertical stripe) or one of the vertical stripes, and 1 elsewhere; margins stay blank; swapping height/width and the margins transposes the image; if one direction has no stripe and the other has, it raises IndexError.",
  "every height, width, distance > 0, size, margin >= 0",
  "Combinatorial statement over all parameters.", UTIL+": make_line_pattern")
p("C19","Chessboard image: exact alternating cells",
  "make_chessboard gives, at a pixel of cell (a,b) counted from offset size+margin, 1.0 when a+b is even and 0.0 when odd, for exactly the cells whose start is below height-margin-size (resp. width), and margin_grayscale at every other pixel; the outer margin is never written. Size 0 raises ValueError.",
  "every height, width, cell size > 0, margin >= 0",
  "Closed form of nested loops with slice assignments for all parameters.", UTIL+": make_chessboard")
p("C20","Point lookup agrees with line unwarping and inverts",
  "find_point_to_point returns (x,y) (or (y,x) for any other output_order) of center + F(r)*(p - center), i.e. the same point as unwarp_line_forward; if the two polynomials satisfy B(F(r)*r)*F(r) = 1 at the radius of the point and F(r) >= 0, looking a point up with F and the result with B gives the point back.",
  "every point, center, coefficient lists",
  "Algebraic law over all points and models.", UTIL+": find_point_to_point", POST+": unwarp_line_forward")
p("C21","Padding argument: accepted forms and automatic padding",
  "The pad argument of unwarp_color_image_backward / unwarp_image_backward_cv2: False pads nothing; an int pads that much on all four sides; a tuple or list of length 4 is (top,bottom,left,right); any other length or type raises ValueError; True gives four non-negative widths such that each corner of the source image, mapped through the fitted forward model, lies strictly less than 1 pixel outside the padded image at top/left and strictly less than 2 pixels outside at bottom/right.",
  "every pad value, image size, center, coefficients and every fitted inverse polynomial",
  "Corners are mapped by an arbitrary fitted polynomial.", UTIL+": _calc_pad, unwarp_color_image_backward")
p("C22","Color unwarping is channel-wise gray unwarping of the padded image",
  "unwarp_color_image_backward of a 2D image with pad=False equals unwarp_image_backward; of a 3D image, channel c of the result equals the 2D result for channel c; with padding (t,b,l,r) the result equals unwarp_image_backward of the padded image with center (xcenter+l, ycenter+t), and its shape is (height+t+b, width+l+r). Holds for every spline order, boundary mode and arithmetic.",
  "every image, number of channels, center, coefficients, non-negative padding, interpolation routine",
  "Equality of two implementations for all inputs.", UTIL+": unwarp_color_image_backward", POST+": unwarp_image_backward")
p("C23","OpenCV and scipy variants sample the same positions",
  "unwarp_image_backward_cv2 and unwarp_video_cv2 hand the remap routine exactly the coordinate maps that unwarp_color_image_backward hands to map_coordinates for the same image size, padding, center and coefficients.",
  "every image size, padding, center, coefficients, every arithmetic",
  "Equality for all parameters; the cv2 functions are excluded from coverage.", UTIL+": unwarp_image_backward_cv2, unwarp_video_cv2, unwarp_color_image_backward")
p("C24","Video unwarping: which frames are shown and when it stops",
  "unwarp_video_cv2 discards the first frame; afterwards it shows the corrected version of every frame successfully read, in order, up to and including the first one after which ESC is reported, then releases the camera; the corrected version is what unwarp_image_backward_cv2 gives for the frame. If ESC is never reported it never returns: after the end of a finite stream it loops for ever without releasing the camera. If the first read fails and padding is requested it raises at the first later frame. A frame with another number of axes than the first one (padding requested) raises ValueError after all earlier frames were shown.",
  "every stream of read results and key presses, any number of steps",
  "Non-termination and infinite histories cannot be tested; function is marked no-cover.", UTIL+": unwarp_video_cv2")
# ---------------------------------------------------------------- proc
p("C25","Update of the center undoes the shift to the center",
  "update_center adds (ycenter, xcenter) to every (y,x) point and preserves counts and order; applied to the shifted lines that the parabola fits return it restores the original points.",
  "every list of lines and every center", "All inputs.", PROC+": update_center, _para_fit_hor, _para_fit_ver")
p("C26","Coarse center is the crossing of the two middle lines, and x/y symmetric",
  "find_cod_coarse returns the intersection point of the line with averaged slope/intercept of the two horizontal parabolas at the first sign change of curvature with the analogous vertical line (when slopes are not reciprocal); exchanging the roles of x and y in the input exchanges xcenter and ycenter; fewer than two lines in a direction raises an exception.",
  "every set of lines, every parabola fit", "Geometry for all inputs.", PROC+": find_cod_coarse")
p("C27","Bailey's method is exact on ideal parabolic grids",
  "If each horizontal line consists of points on y = k*(c_i - yc)*(x-xc)^2 + c_i and each vertical line on x = k*(d_j - xc)*(y-yc)^2 + d_j (k<>0, at least three distinct points a line and two distinct lines a direction, the averaged middle lines of the coarse step not parallel, and, for k<0, the coarse centre (X,Y) with 1+k(X-xc)^2 and 1+k(Y-yc)^2 non-zero), find_cod_bailey returns exactly (xc, yc) for every number of iterations >= 0 (exact arithmetic).",
  "every ideal grid, every iteration count", "Exactness for a family of inputs and all iteration counts.", PROC+": find_cod_bailey, _para_fit_hor, _para_fit_ver")
p("C28","Fine search stays in its window and minimises the metric",
  "find_cod_fine moves the coarse center by less than point_dist+4 pixels in each direction, and each of its two stages picks a shift whose metric is minimal among all shifts of the stage's grid; the metric of a shift is the sum of the absolute intercepts of straight lines fitted to the points of the nearby parabolas found nearest to the shifted center.",
  "every set of lines, coarse center, point distance > 0, every metric value", "All metric landscapes.", PROC+": find_cod_fine, _calc_metric")
p("C29","Undistorted intercepts are equidistant and exact on undistorted grids",
  "The undistorted intercepts used by the calc_coef functions lie at equal distances on both sides of the line nearest the center; if the measured intercepts are strictly monotone and equidistant, with at least four lines in each direction, they are returned unchanged and no warning about missing lines is issued.",
  "every list of fitted lines", "All grids.", PROC+": _calc_undistor_intercept")
p("C30","Calibration of an undistorted grid gives the identity model",
  "For an undistorted grid (all lines straight, parallel to the axes, equidistant, none through the center, enough distinct radii) calc_coef_backward, calc_coef_forward and calc_coef_backward_from_forward return [1,0,...,0] with max(1,num_fact) coefficients (exact arithmetic, exact least squares).",
  "every undistorted grid, center off the lines, num_fact", "All grids and polynomial lengths.", PROC+": calc_coef_backward, calc_coef_forward, calc_coef_backward_from_forward")
p("C31","Transforming coefficients between backward and forward",
  "transform_coef_backward_and_forward returns the same coefficients for mapping='backward' and mapping='forward'; raises ValueError when fewer reference points than coefficients are given; whenever the inverse relation is exactly polynomial on the reference points, the returned polynomial G satisfies G(F(r)*r)*F(r)=1 at every reference radius with F(r)<>0, so that distorting and undistorting returns the point; [k] is transformed to [1/k].",
  "every coefficient list, reference points, least-squares solver", "External solver; all inputs.", PROC+": transform_coef_backward_and_forward")
p("C32","Regenerated linear grid",
  "regenerate_grid_points_linear returns num_hor x num_ver points where point (i,j) lies on horizontal line i and vertical line j (when a1*a2<>1, exact arithmetic up to the final float32 store) and the second result is the transpose of the first.",
  "every list of line coefficients", "All lines.", PROC+": regenerate_grid_points_linear, _find_cross_point_between_lines")
p("C33","Undistorted perspective lines form an orthogonal equidistant grid",
  "With at least two lines in each direction, generate_undistorted_perspective_lines succeeds and returns points of a grid whose horizontal lines are mutually parallel, whose vertical lines are perpendicular to them and which are equidistant in each direction; with equal_dist=True the two distances agree; point (i,j) of the first result is point (j,i) of the second.",
  "every list of lines, every option, every optimiser outcome", "All inputs.", PROC+": generate_undistorted_perspective_lines, _calc_undistor_intercept_perspective")
p("C34","Four perspective points: ordering and rectangle",
  "generate_4_source_target_perspective_points raises ValueError unless given 4 points; when two points lie above the other two and each pair has distinct x-coordinates, the source points are a rearrangement of the input (independent of the input order) ordered top-left, top-right, bottom-left, bottom-right; the target points form a rectangle (parallelogram with a right angle) whose side lengths are the selected distances (mean/min/max/scaled; equal when equal_dist); input_order='xy' equals 'yx' with swapped coordinates.",
  "every four points and options", "All geometries and permutations.", PROC+": generate_4_source_target_perspective_points")
p("C35","Perspective coefficients reproduce consistent point pairs",
  "If some 8-coefficient projective map sends every source point to its target (with non-zero denominators), the coefficients returned by calc_perspective_coefficients(mapping='forward') send, via correct_perspective_line, every source point (with non-zero denominator) to its target; mapping='backward' is 'forward' with source and target exchanged.",
  "every point list, every least-squares solver", "External solver; all inputs.", PROC+": calc_perspective_coefficients", POST+": correct_perspective_line")
p("C36","Perspective correction of calibration lines: counts, and the unreachable input checks",
  "correct_perspective_effect raises ValueError when fewer than 2 lines are given in a direction; otherwise it preserves the number of lines and of points per line. Its checks for a missing curvature direction never fire: when no line opens one way no ValueError is raised by the check: min/max raise IndexError, and mean/median go on with NaN, which reaches the least-squares solver.",
  "every set of lines", "Dead error branches can only be shown dead by proof.", PROC+": correct_perspective_effect, __get_representative_linear_coefs")
p("C37","Crossing of two same-orientation parabolas",
  "When the two leading coefficients differ the routine used by the vanishing-point methods returns None exactly when the parabolas do not meet and otherwise exactly the abscissae where they meet; when the leading coefficients are equal it returns fewer than two values. find_center_based_vanishing_points only pairs lines of opposite curvature and therefore always returns a centre on lines with points; find_center_based_vanishing_points_iteration raises ValueError whenever another line has the curvature of the flattest one, in particular on every grid of straight lines parallel to the axes.",
  "every pair of parabolas", "All coefficient pairs, including the degenerate ones.", PROC+": _find_cross_point_between_parabolas_same_direction, find_center_based_vanishing_points, _find_center_based_vanishing_points_2nd_way")
p("C38","Parabola grid regeneration is consistent",
  "regenerate_grid_points_parabola returns num_hor x num_ver points such that the second result is the transpose of the first, and each point lies on both fitted parabolas (about the origin, or about the centre found) up to the residual of the nonlinear solver; it succeeds on all lines with points (at least two per direction when a centre is needed).",
  "every set of lines, solver outcome", "External solver.", PROC+": regenerate_grid_points_parabola, _find_cross_point_between_parabolas")
# ---------------------------------------------------------------- prep
p("C39","Region of interest is central, non-empty where expected and inside the image",
  "The ROI used by binarization, calc_size_distance, slopes: for every ratio (clipped to [0.05,1]) the non-square ROI removes the same number of rows at top and bottom and columns left and right and is non-empty for every image with at least one row and column; the square ROI has even side 2*(int(ratio*min(h,w))//2), lies inside the image.",
  "every image size and ratio", "All sizes.", PREP+": _select_roi")
p("C40","Contrast inversion makes dots the minority",
  "For a binary image the contrast-normalised image used by binarization has at most half of its pixels set; it is the image itself or its complement. Binarization thresholds the image strictly above the given threshold, or, without one, above the threshold computed from its region of interest; with denoising both refer to the median-filtered absolute values.",
  "every binary image; every image, threshold, ratio and denoising choice", "All images.", PREP+": _invert_dots_contrast, binarization")
p("C41","Dot selection by size/ratio only copies bounding boxes of the input",
  "select_dots_based_size and select_dots_based_ratio return an image of the same shape in which a pixel is the input pixel if it lies in the bounding box of an accepted component and 0 otherwise; so no pixel is invented. It is not true that every pixel of a rejected component is removed: pixels of a rejected component inside the bounding box of an accepted one survive.",
  "every binary image, criterion", "All images; the overlap case needs a witness.", PREP+": select_dots_based_size, select_dots_based_ratio")
p("C42","Distance criterion is one-sided",
  "select_dots_based_distance keeps a dot exactly when, for one of its (up to) three nearest neighbours, the distance exceeds a whole multiple of dot_dist by less than ratio*dot_dist; consequently a dot whose neighbours are all slightly nearer than dot_dist (between ratio*dot_dist and dot_dist) is removed.",
  "every dot arrangement, ratio in (0,1), dot_dist > 0", "All distances.", PREP+": select_dots_based_distance")
p("C43","Line membership test is symmetric",
  "Two dots are considered neighbours on a line exactly when their x-distance is below num_dot_miss*dot_dist and the distance of one to the line with the given slope through the other is below ratio*dot_dist; the relation is symmetric and invariant under translation.",
  "every pair of dots and parameters", "All reals.", PREP+": _check_dot_on_line")
p("C44","Grouping dots into lines: soundness",
  "group_dots_hor_lines terminates on every point list; every returned line has at least two dots; all dots of all returned lines together are a sub-multiset of the input (no dot invented, none used twice); within a line dots are ordered by x and consecutive dots satisfy the membership test; lines are ordered by mean y. An empty list raises ValueError.",
  "every list of points and parameters, every membership test", "Loop over a shrinking array for all inputs.", PREP+": group_dots_hor_lines")
p("C45","Grouping dots: completeness before length selection, and the strict length rule",
  "Before short lines are dropped every dot is in exactly one group or single, and no dot left out of a finished line passes the test against the line's running end at its position; the length rule keeps exactly the lines with more than int(accepted_ratio*max_length) dots - strictly more, so with accepted_ratio=1.0 the result is always empty although the documentation says equal or larger.",
  "every list of points and parameters", "All inputs; boundary.", PREP+": group_dots_hor_lines")
p("C46","Vertical grouping is horizontal grouping with exchanged coordinates",
  "group_dots_ver_lines(points, ...) equals group_dots_hor_lines of the points with x and y exchanged (same options), with the coordinates of the result exchanged back; likewise remove_residual_dots_ver / _hor and the polynomial-fit grouping.",
  "every list of points and parameters", "Equality of duplicated code for all inputs.", PREP+": group_dots_ver_lines, group_dots_hor_lines, remove_residual_dots_hor, remove_residual_dots_ver")
p("C47","Residual-dot removal only removes",
  "remove_residual_dots_hor/_ver return, for each line that keeps at least one dot, exactly the dots (in order) whose vertical deviation from the line's own fitted parabola, times cos(atan(slope)), is below the residual; lines without such dots disappear, and ValueError is raised exactly when nothing is left.",
  "every list of lines", "All inputs.", PREP+": remove_residual_dots_hor, remove_residual_dots_ver")
p("C48","Parabola mask membership and mirror symmetry",
  "Without rotation make_parabola_mask is 1 exactly where the pixel is strictly inside the four parabolas and 0 elsewhere; raises ValueError exactly when left+right > width or top+bottom > height; pixels within a non-negative margin are 0 for non-negative curviness; with equal margins it is symmetric under x -> width-x and y -> height-y.",
  "every size, curviness, margins", "All parameters.", PREP+": make_parabola_mask")
p("C49","Point removal by mask: result and failure",
  "If all points have integer parts inside the image, remove_points_using_parabola_mask returns exactly the points whose integer pixel is inside the mask, in order. A point whose integer row is >= height or < -height (or column likewise) makes the call raise IndexError instead of being filtered; a point with a negative in-range index is filtered out.",
  "every list of points", "All point positions.", PREP+": remove_points_using_parabola_mask")
p("C50","Rotating points is a rotation",
  "rotate_points preserves the number of points and all pairwise distances, rotating by 0 is the identity, rotating by a then b is rotating by a+b, and rotating by -a undoes rotating by a; degrees are radians*180/pi.",
  "every list of points and angles", "All reals.", PREP+": rotate_points")
p("C51","Subset removal is ordered multiset filtering",
  "remove_subset_points returns exactly the points not occurring among the selected ones, in order and with multiplicity.",
  "every two lists of points", "All lists.", PREP+": remove_subset_points")
p("C52","Iterative neighbour search terminates and only adds",
  "The iterative neighbour search used by the polynomial-fit grouping terminates for every input (exact arithmetic); its result contains all initial points and only initial points or members of the point list.",
  "every initial set, point list, window, search distance of any sign, overlap ratio, fit", "Termination of a while loop for all inputs.", PREP+": _get_nearby_hor_points_iter, _get_nearby_ver_points_iter")
p("C53","Polynomial-fit grouping re-uses stale points for short groups",
  "group_dots_hor_lines_based_polyfit does not guarantee that a returned line stems from one group: there is an input on which a two-dot group makes it return a line that contains dots of different horizontal lines (the whole central selection), and one on which a two-dot group after a longer one makes it return a line of points that are not input dots (the previous line rotated once more). It always terminates; when all central groups have more than two dots every returned line stems from one group and holds input dots only.",
  "every input (termination, long groups); existence of an input (refutations)", "A rarely-taken path (2-dot group first) not covered by tests.", PREP+": group_dots_hor_lines_based_polyfit")
p("C54","Threshold calculation is affine-equivariant and depends only on the grey-value distribution",
  "calculate_threshold of a*mat+b is a*threshold+b for a>0, permuting the pixels does not change it, and for snr>=0 it is, for bgr='bright', not above the value of the fitted background line at the first grey level and, for 'dark', not below its value at the last one; with a non-negative fitted slope it lies outside the whole fitted range.",
  "every image, a>0, b, snr, linear resampling routine", "Algebraic law.", PREP+": calculate_threshold")
p("C55","Background normalisation does not guard against zero background",
  "normalization / normalization_fft compute mean*mat/background pixel-wise; the fallback for zero background never runs because array division does not raise: a zero background pixel yields infinity or NaN.",
  "every image and background; floating-point semantics", "Dead code can only be shown dead by proof.", PREP+": normalization, normalization_fft")
p("C56","Decision rules on dots",
  "check_num_dots returns True exactly when fewer than 25 components are found; the size test accepts exactly sizes within [dot_size-ratio*dot_size (at least 0), dot_size+ratio*dot_size].",
  "every image / size", "Boundaries.", PREP+": check_num_dots, _check_dot_size, select_dots_based_size")
# ---------------------------------------------------------------- line
p("C57","Sub-pixel extremum position stays in range",
  "locate_subpixel_point returns a position in [0, n) for every profile of n>=1 points; it returns the vertex of the fitted parabola when the vertex lies in [0, n), whichever extremum was asked for, and otherwise the first position of the extremum asked for. Consequently the option does not matter for a parabola with its vertex in range: asked for the minimum of samples of a downward parabola it returns their maximum.",
  "every profile, fit", "All profiles.", LINE+": locate_subpixel_point")
p("C58","Good-peak selection is an ordered sub-list",
  "select_good_peaks returns a sub-list (in order) of the given peaks; every selected peak has a window of more than 3 samples with non-zero deviation and passes the tolerance tests of the Gaussian fitted to the rescaled window; a radius below 2 selects nothing; with use_offset it selects a subset of what it selects without.",
  "every profile, peak list, fit outcome", "External fit.", LINE+": select_good_peaks")
p("C59","Sliding-window slopes",
  "sliding_window_slope raises ValueError exactly for fewer than 3 samples; otherwise it returns one non-negative value per sample (float input); a constant profile gives zeros; with norm the mean is 1 unless all slopes vanish, and the result does not change when the data are scaled by a non-zero factor or shifted. For integer input the slopes are stored truncated to integers, so slopes below one are lost.",
  "every profile, window size", "All profiles.", LINE+": sliding_window_slope")
p("C60","Local extrema: soundness and the excluded last position",
  "Every position reported by get_local_extrema_points (subpixel=False) lies in [radius, n-radius-2], and is a minimum of its window whose relative depth exceeds the sensitivity; conversely every such position is reported. The position n-radius-1, which also has a full window, is never reported. The options denoise, find-max and norm amount to a search in the filtered, upside-down or background-normalised profile. With subpixel=True each position moves to the vertex of the parabola through its three samples (at most half a sample), but a bottom of three equal samples is reported one sample to the left, so the result need not be increasing.",
  "every profile and parameters", "All profiles.", LINE+": get_local_extrema_points")
p("C61","Tilted profiles stay inside the image",
  "For angles strictly between -90 and 90 degrees and images up to 32767 pixels, get_tilted_profile accepts an index iff the whole line fits (rows ceil(w*tan a)..h-1 for a positive angle, 0..h-1-floor(w*tan|a|) otherwise; columns likewise) and raises ValueError otherwise, also at +-90 degrees. Every sampled position lies in the image; it is the point of the tilted line, moved by at most one pixel at the far edge; the crop handed to the interpolation contains every sampled position and equals the image there, so a position on a pixel gives that pixel. At angle 0 the profile of row r is not the row: sample k is taken at column k + k/(w-1). With 32768 rows or more the crop bounds wrap (int16) and profiles of different images coincide.",
  "every image size, index, angle, direction and interpolation routine", "Trigonometry and rounding for all sizes and angles.", LINE+": get_tilted_profile, _calc_index_range")
p("C62","Generated profile indices are always accepted",
  "In exact arithmetic get_cross_points_hor_lines / _ver_lines only request profile indices inside the extractable range: for every image from 5x5 up and every positive step they return iff some index is accepted for that slope and raise ValueError otherwise. In double precision this is false: np.arange may pass its end (default ratio 0.3, lines 6 pixels apart, 17x100 image, slope -0.065 asks for row 16.000000000000004 of 0..16), and the whole call raises ValueError.",
  "every image, slope, spacing, offset and option", "All parameters.", LINE+": get_cross_points_hor_lines, get_cross_points_ver_lines, _calc_index_range")
# ---------------------------------------------------------------- losa
p("C63","Saving with overwrite=False never touches an existing file",
  "Every save function with overwrite=False writes to a path that did not exist before, returns that path, and leaves the content of every pre-existing file unchanged; the chosen name is the requested one if free, else the requested name with the smallest free _NNNN counter (at least 4 digits) inserted before the extension; the search terminates whenever finitely many files exist. (Plots need a name with an extension: saved without one, save_plot_image creates a folder, and matplotlib then overwrites '<name>_0000.png' although overwrite=False and the returned path does not exist.)",
  "every file system state and requested path", "All file-system states.", LOSA+": _create_file_name, save_metadata_txt, save_metadata_json, save_python_list, save_hdf_file, save_image")
p("C64","Extension handling",
  "save_metadata_txt/json/save_python_list/save_hdf_file keep an accepted extension (any case) and otherwise replace the last extension by the default one; hence different requested names such as 'scan.001' and 'scan.002' are written to the same file. A path without a file name raises ValueError and nothing is written.",
  "every file name", "All names.", LOSA+": save_metadata_txt, save_metadata_json, save_python_list, save_hdf_file, open_hdf_stream")
p("C65","Text metadata round trip",
  "load_metadata_txt(save_metadata_txt(path, x, y, facts)) returns exactly (x, y, facts) for every number of coefficients, provided str/float round-trip on the numbers and str produces no white space. The file holds one line 'name = number' per number: xcenter, ycenter, factor0, factor1, ....",
  "every path, file system, center, coefficient list", "All coefficient lists; formatting.", LOSA+": save_metadata_txt, load_metadata_txt")
p("C66","JSON metadata round trip",
  "load_metadata_json(save_metadata_json(path, x, y, facts)) returns (x, y, facts as a list) for lists, tuples and arrays of numbers.",
  "every path, file system, center, coefficient list", "Printer/parser inverse for all inputs.", LOSA+": save_metadata_json, load_metadata_json, __numpy_encoder")
p("C67","Failed JSON save destroys an existing file",
  "A center that cannot be converted to float makes save_metadata_json raise before any file content changes; a coefficient that is not JSON serialisable makes it raise after the target file was truncated, so an existing file with the target name loses its content.",
  "every file system state, every failing argument", "Crash point between truncation and write.", LOSA+": save_metadata_json")
p("C68","Windows path correction undoes string escapes",
  "For every path text whose backslash sequences are only the single-letter escapes a,b,f,n,r,t,v,0 or non-escapes, correcting the text after Python's unescaping gives the same forward-slash path as correcting the raw text; correction is idempotent and its result contains no backslash or control character from the list.",
  "every string", "All strings.", LOSA+": __correct_path")
p("C69","Folder creation for paths without extension",
  "Saving creates the parent folder of a path with an extension, but for save_image/save_plot_image a path without an extension is itself created as a folder.",
  "every path and file system", "All paths.", LOSA+": _create_folder, save_image")
p("C70","HDF listing",
  "get_hdf_information returns three lists of equal length; every dataset of the file is listed with its shape and type, and every listed shape/type is that of the object the key resolves to; datasets inside groups are listed twice. find_hdf_key returns exactly the entries of get_hdf_information whose key contains the pattern. load_hdf_object returns the object a key leads to, every listed dataset among them, and raises ValueError for a key that leads nowhere or a path that is no HDF file.",
  "every HDF tree, every pattern, every key", "All trees.", LOSA+": get_hdf_information, find_hdf_key, load_hdf_object")
p("C71","Automatic dataset key",
  "load_hdf_file without key_path uses the first (in visiting order) group's child dataset named 'data'; a dataset named 'data' in the root group is never found and ValueError is raised if no other exists. With a key_path it reads the object load_hdf_object gives: ValueError if there is none (or no HDF file), AttributeError if it is a group, ValueError if the dataset has neither 2 nor 3 dimensions, and a 2D dataset is returned as it is for every index and axis.",
  "every HDF tree", "All trees.", LOSA+": load_hdf_file, _get_key")
p("C72","Slicing of 3D datasets",
  "load_hdf_file on a 3D dataset with an in-range integer index returns the 2D plane, unless the plane has extent 1 along the tested axis, in which case it returns a 1D row or raises IndexError; with a range of one index along axis 0 or 1 it returns the 2D plane; with a range of exactly one index along axis 2 it always raises IndexError; an empty range raises ValueError and so does a step of 0; otherwise it returns the selected planes. Indices which are not increasing (so every range with a negative step and two or more indices) or out of range are rejected.",
  "every shape, axis, index form", "All shapes.", LOSA+": load_hdf_file")
p("C73","HDF save/load round trip",
  "load_hdf_file(save_hdf_file(path, data)) returns the 2D data unchanged and 3D data converted to float32, with and without giving the key path.",
  "every path, file system, 2D/3D data", "All shapes and states.", LOSA+": save_hdf_file, load_hdf_file")
p("C74","Stream option keys",
  "open_hdf_stream raises ValueError as soon as an option key contains key_path as a substring - also for sibling keys such as 'entry/data_dark' - and at that point an existing target file has already been truncated (it holds exactly the options before that key). On a writable target a stream is opened exactly when no option key contains key_path and no key (key_path included) is empty, equal to another or leads through another; every other case is a ValueError.",
  "every option list, key path and file system", "Crash point; all keys.", LOSA+": open_hdf_stream")
p("C75","8-bit image scaling",
  "save_image to a file whose extension is not exactly .tif or .tiff maps non-uint8 data with more than one value monotonically into 0..255 with minimum->0 and maximum->255 in exact arithmetic (254 or 255 in float32/float64 arithmetic, and 254 does occur), for floating point data and for integer data whose range fits the integer type (signed data with a larger range wrap around); constant data are converted modulo 256; uint8 data are stored unchanged.",
  "every image", "All images.", LOSA+": save_image")
p("C76","Averaging of multichannel images picks the smallest axis",
  "load_image/save_image average along the first axis of minimal length: for height,width > channels this is the channel axis; for images with height <= channels it is not, so the result does not have the image's shape.",
  "every shape", "All shapes.", LOSA+": load_image, save_image")
p("C77","File search",
  "find_file returns the matching files sorted, each exactly once, and raises FileNotFoundError exactly when none matches.",
  "every directory content, every matcher", "All directories.", LOSA+": find_file")
exec(open(os.path.join(os.path.dirname(__file__),"props_more.py")).read()) if os.path.exists(os.path.join(os.path.dirname(__file__),"props_more.py")) else None
with open(os.path.join(os.path.dirname(__file__),"..","properties.jsonl"),"w") as f:
    for x in P: f.write(json.dumps(x)+"\n")
print(len(P))
