# Notes per property for MANIFEST.json.
PARTIAL = set()
NOTES = {
 "C10": "For heights up to 32767 (np.arange(height, dtype=int16) does not overflow) and width >= 1.",
 "C11": "A refutation: the guarantee of C08 fails for tall arrays.",
 "C12": "The fit and the sort are oracles with their specification as hypothesis; instances exist.",
 "C17": "Exact arithmetic; margins >= 0 and images of at least 8 pixels per side.",
 "C21": "The fitted inverse polynomial is an arbitrary oracle result; bounds on all four sides need the centre in the image and a non-negative fitted factor, otherwise each corner is bounded on its own sides.",
 "C22": "Any arithmetic and interpolation routine; the unpadded case needs rounding to fix the centre and interpolation to read in-image pixels only.",
 "C24": "Streams of reads and keys are arbitrary functions; the loop is observed after any number of iterations.",
 "C39": "Double precision for sides up to 2^40 pixels, and exactly.",
 "C41": "The English claim that rejected dots disappear is refuted: boxes of accepted dots are copied whole (C41_rejected_removed_refuted).",
 "C42": "Exact arithmetic; connected-component labelling is an oracle with its specification as hypothesis.",
 "C44": "Point-list input; the structural part holds for every rounding.",
 "C46": "Grouping and residual removal in every arithmetic; polynomial-fit grouping in exact arithmetic for a fit that does not depend on the order of points (instance fit_sorted).",
 "C48": "No rotation (ndi.rotate is not modelled).",
 "C49": "With or without rotation, for whatever mask make_parabola_mask returned.",
 "C53": "Two refutations in double precision plus termination and the guarded guarantee.",
 "C54": "Resampling and line fit are oracles; images whose longer side is 3 or at least 5 (otherwise np.polyfit gets too few points).",
 "C55": "Formula in every arithmetic; NaN/infinity in IEEE doubles.",
 "C63": "save_image: PIL refuses empty extensions and extensions with '_'; figures: names with an extension, the case without one is refuted in C63_plot_without_extension_refuted.",
 "C64": "Stated for all five savers with a default extension.",
 "C65": "str/float round trip of the numbers is a hypothesis; the spelling of the returned path is covered on POSIX.",
 "C66": "repr/parse round trip of floats is a hypothesis (float_repr_ok); JSON grammar modelled for what json.dump emits.",
 "C70": "No object has two hard links; names are non-empty, not '.', and contain no slash.",
 "C75": "Float arithmetic: the maximum maps to 254 or 255; both exceptions are refutations.",
 "C25": "Restoring the points in exact arithmetic; counts in every arithmetic.",
 "C26": "np.polyfit is any least-squares solver; the symmetry holds for every rounding of products.",
 "C27": "Exact arithmetic.",
 "C28": "Exact arithmetic with any float32 store; the minimisation routine is arbitrary and is handed the squared distance from the origin along the parabola.",
 "C29": "optimize.minimize is assumed to minimise quadratic functions.",
 "C30": "Exact arithmetic with a store exact on the line distances (float32 example); least squares and minimisation are oracles with their specification.",
 "C31": "Exact arithmetic; np.linalg.lstsq is any least-squares solver.",
 "C83": "IEEE doubles.",
 "C32": "Transposition in every arithmetic; incidence in exact arithmetic up to the final store.",
 "C33": "Exact arithmetic; at least two lines per direction (with one the line distance is the mean of an empty array).",
 "C34": "Exact arithmetic with any argsort; argument checks and coordinate order in every arithmetic.",
 "C35": "Exact arithmetic; np.linalg.lstsq is any least-squares solver.",
 "C36": "Counts and errors in every arithmetic; the NaN path in IEEE doubles.",
 "C37": "Exact arithmetic; np.roots is an oracle specified for degree at most two.",
 "C38": "Transposition in every arithmetic; incidence relative to the residual of fsolve on the equations it is given.",
 "C84": "Exact arithmetic; fits, minimisation and least squares are oracles with their specification.",
 "C85": "Exact arithmetic with the true cosine and arctangent.",
 "C86": "Exact arithmetic with the true cosine and arctangent.",
 "C87": "Exact arithmetic, positive line distances; relative to the residual of fsolve.",
 "C88": "Exact arithmetic; optimize.minimize is assumed to minimise quadratic functions.",
 "C57": "Range in every arithmetic whose comparisons are those of the stored numbers; vertex in exact arithmetic; np.polyfit is any least-squares solver.",
 "C58": "Sub-list and offset claims in every arithmetic; the tests in exact arithmetic; the Gaussian fit is an oracle returning any parameters.",
 "C59": "Exact arithmetic; np.polyfit is any least-squares solver.",
 "C60": "Characterisation in exact arithmetic; range of the positions with every option in every arithmetic; np.polyfit and np.argsort are oracles with their specification, the Gaussian filter is arbitrary.",
 "C92": "Exact arithmetic; np.polyfit is any least-squares solver.",
 "C93": "Exact arithmetic; profiles of three, or of five and more samples (otherwise the line is fitted to fewer than two samples).",
 "C61": "Exact arithmetic with the true trigonometric functions; the interpolation is any routine that depends on the pixels only (and returns pixels at pixels, for the pixel statement). The error statement C61_out_of_range holds in every arithmetic.",
 "C62": "The claim is proved in exact arithmetic and refuted for doubles (every choice of the library functions that gives rows 7..16).",
 "C91": "Exact arithmetic; np.polyfit and np.argsort are oracles with their specification; smoothing, FFT filter and interpolation are arbitrary shape-preserving routines.",
 "C89": "Exact arithmetic with the true tangent; the projection is any routine returning one non-empty column per angle that depends on the pixels only. NaN claim in doubles for arbitrary library functions. Non-positive search ranges and the empty region with a dark background are left to the library.",
 "C90": "Exact arithmetic; the Gaussian filter is any shape-preserving routine (for the contrast claim: one that commutes with the change). The NaN claim is in doubles.",

 "C95": "Exact arithmetic with arbitrary storage rounding of the coefficients; np.polyfit is any least-squares solver.",
 "C94": "Exact arithmetic; interpolation, smoothing and FFT filter are any routines that commute with transposition (a nearest-pixel routine is the instance shown).",
 "C96": "Exact arithmetic; fft2/ifft2 are any routines that return the discrete Fourier transform and its inverse; modes 'reflect', 'edge' and others that copy pixels ('constant' and statistics modes are not covered).",
 "C97": "Exact arithmetic with arbitrary storage rounding of the parabola coefficients; np.polyfit and np.linalg.lstsq are any exact least-squares solvers. Real division: no fitted parabola vanishes at a dot.",
 "C98": "Shift and exchange: exact arithmetic with arbitrary storage rounding of the parabola coefficients; scale: exact arithmetic. np.polyfit and np.linalg.lstsq are any exact least-squares solvers, optimize.minimize is exact on quadratics. For find_cod_coarse the claim is false; C98_coarse_shift_refuted gives a grid.",
 "C99": "Exact arithmetic; np.argsort is any sorting permutation, np.polyfit and np.linalg.lstsq any exact least-squares solvers, optimize.minimize exact on quadratics.",
 "C100": "As C99; ndi.label is any routine that numbers the connected components (one exists for every image, labelling_exists). The image is not binarised first (binarize=False).",
 "C101": "Texts of ASCII characters; float is any function from words to numbers.",
 "C102": "The image library is modelled as storing the array it is given, which holds for TIFF and PNG; the theorems are restricted to these formats.",
 "C103": "Texts of ASCII characters; values are numbers, null, booleans, lists and objects (no strings), names are without escapes. float.__repr__ and float are functions that are inverse to each other. C103_text_cut_refuted: text metadata have no such protection.",
 "C104": "Exact arithmetic; np.argsort is any sorting permutation, np.polyfit any exact least-squares solver that returns; rows of at most 32767 dots (int16 in the code).",
 "C105": "The content of files is modelled by kind (image, HDF tree, text, bytes, figure).",
 "C106": "plt.savefig is modelled by its rule for names and formats; the drawing is not modelled. With overwrite=False and no extension an existing file can be overwritten: C63_plot_without_extension_refuted.",
 "C107": "Every operation is rounded to double precision (np.power to the nearest double; overflow is not modelled); the interpolation itself is exact. Sums in the order of np.sum for up to 8 terms.",
 "C108": "Exact arithmetic. ndi.label is any labelling of the 4-connected sets, clear_border removes the 8-connected sets that reach the edge (DotSpec.v), the Radon transform is only assumed to have its maximum at the middle angle; np.polyfit and the optimisers as in C100. A dot of even size lacks its last row and column, which moves all centres by the same amount.",
 "C109": "For every rounding of the arithmetic; the interpolation is any that treats the axes alike, as order 1 does (C109_bilinear). C109_forward_refuted: colliding pixels.",
 "C110": "Order-1 interpolation, itself exact; positions in double precision as in C107 (perspective: exact, stored in single precision). Pixels are point samples of the brightness. The conditions of C110_calibrated are those of C97_backward_exact.",
 "C111": "Exact arithmetic (positions stored in single precision). C111_weak and C111_positive give the two sufficient conditions; C111_fold is the converse.",
 "C112": "Exact arithmetic. argsort is assumed to depend on the order of its values only (order_based; shown for insertion sort).",
 "C113": "Exact arithmetic for the calibration, float32 coordinates as in C110 for the image. The eight coefficients divide by the ninth: the pixel (0, 0) must correspond to a point of the plane.",
 "C114": "No overflow. Interpolation itself in exact arithmetic.",
 "C115": "Linear interpolation in exact arithmetic.",
 "C116": "The forward model is the one calc_pad fits (a parameter, as in C21). C116_middle_refuted gives the counterexample for non-monotone models.",
 "C117": "Machine numbers are the kernel's primitive floats, through their standard library axioms and Flocq's correspondence. Powers are assumed correctly rounded (hypothesis pow_ok, met by exact_pow); numpy's sums are assumed to run in sequence.",
 "C118": "The cross-section is the one seen after normalisation and smoothing, which are given functions; exact arithmetic. Peak selection (select_peaks) off.",
 "C119": "Linear interpolation, as in the code. Limits on the image size as in C09 (int16 indices, exact single-precision coordinates).",
 "C120": "Exact arithmetic apart from the float32 storage of the fitted parabolas. The third part is for lines that are parabolas symmetric about the centre, none through it.",
 "C121": "Exact arithmetic apart from the float32 storage of the fitted parabolas. The iterated vanishing-point search is not covered: a corrected line could have too few different positions.",
 "C122": "C122_alone ties the step model to the functions; C122_nothing_lost, C122_independent (with C122_apart for a simple condition), C122_any_moment, C122_moments, C122_json_crash, C122_history are proved; C122_race_refuted, C122_old_lost_refuted and C122_text_crash_refuted show what does not hold. Steps are atomic file-system calls; figures need a name with an extension.",
 "C123": "Exact arithmetic apart from the float32 storage of fitted parabolas and positions (any rounding with st(-x) = -st(x), e.g. float32). C123_tie_refuted: with two rows equally near to the centre the listing order matters. find_cod_fine is not covered: its search grid is symmetric only for some dot distances.",
 "C124": "Exact arithmetic. Labelling and border clearing are given by their specifications (connected sets of pixels); for select_dots_based_ratio the axis lengths are assumed not to depend on the direction; for binarization the library filters (threshold, opening, hole filling) are assumed to treat all directions alike. The 2 x 2 median filter of denoise=True is not symmetric, so denoising is left out.",
 "C125": "Props_Held.v. C125_held chains C124 (dots), C99 (grouping) and C98, C121, C123 (calibration under shifts, exchange, reordering and mirroring). C125_target applies it to the generated 64 x 64 pattern upside down, transposed and framed.",
 "C126": "Order-1 interpolation in exact arithmetic at the computed positions. Frames are left out because positions beyond the picture are moved to its edge. The rounded bound is the sum of the bounds of C107 for the two centres.",
 "C127": "Interpolation of order 1 in exact arithmetic at the computed positions; the slice is stored in single precision, the pictures store positions in single precision. The range claim without its condition is refuted by C127_range_refuted.",
 "C128": "The least-squares solver is an oracle returning a minimiser; points are exact. The corner case of a map sending (0, 0) to infinity comes from the ninth coefficient fixed to 1 in the code; C128_lost is an instance.",
 "C129": "Exact arithmetic for the factors; any storage rounding for the exchange in Bailey's method. Bailey's method needs lines of a direction which do not all pass through one point of an axis through a centre met on the way (its straight line is undetermined otherwise). The constructions need parabolas with different curvatures, vanishing points not all in one column (row) and, for the exchange, lines through them which are not parallel. The translation of the grid is not a symmetry of find_cod_coarse (C98_coarse_shift_refuted).",
 "C130": "Exact arithmetic. The external operations are arguments; the median filter is any filter that takes the value of a fixed rank in a window (scipy takes the third smallest of four). C130_noise_margin_refuted, C130_contrast_half_refuted and C130_contrast_denoise_refuted show that the three restrictions are needed.",
 "C131": "Exact arithmetic with positions stored in single precision, bilinear interpolation, frames of up to 2^24 pixels a side. The frame of C131_nothing_lost is that of C116 (less than one pixel outside at the top and left, less than two at the bottom and right).",
 "C132": "The points are computed in exact arithmetic in float lines (integer lines: C02); the picture with positions in exact or double precision (C110). The minimiser is an arbitrary function; only its returned radius enters.",
 "C133": "Lines and coefficients in exact arithmetic (polyfit, least squares and minimiser as specified oracles); both corrections of the picture with positions in exact or double arithmetic and stored in single precision, bilinear interpolation.",
 "C134": "Exact arithmetic; np.polyfit as a specified oracle. The odd case is refuted by a concrete target.",
 "C135": "Exact arithmetic; np.polyfit as a specified oracle. The straight middle line is refuted by a concrete target (C135_jump_refuted).",
 "C136": "Points in exact arithmetic; pictures in exact or double arithmetic with the bilinear interpolation (order=1) on exact values.",
 "C137": "Exact arithmetic. The fitting routines are oracles: any exact least-squares solver and any exact minimiser of quadratics.",
 "C138": "Exact arithmetic. np.linalg.lstsq, np.polyfit and scipy.optimize.minimize are oracles: any exact least-squares solver, any exact fit, any exact minimiser of a parabola.",
}
