# Formal model of discorpy in Rocq

The pinned source is `/repo/discorpy` (packages post, util, proc, prep, losa). The model
is a shallow embedding: each Python function becomes a Gallina function that
follows it branch by branch; raised exceptions are values (`Err`). Proofs are
about those functions. `properties.jsonl` lists the properties (C01...),
`MANIFEST.json` maps each to its theorems.

## 1. How values are modelled

* **Numbers.** Class `Num T` collects the numpy scalar operations used by the
  code. Two kinds of instances:
  * `Rnum rnd : Num R`, real numbers where the result of every arithmetic
    operation is passed through a rounding function `rnd`. `rnd = id` gives exact
    arithmetic; Flocq's binary64 rounding gives IEEE arithmetic without
    overflow. Theorems about ranges, cropping and structure are stated for
    **every** `rnd` (or every `Num`); geometric identities for `rnd = id`.
  * primitive binary64 floats, for statements about NaN/infinity and for
    executable witnesses.
  The `np.float32` cast is Flocq's binary32 rounding to nearest even.
* **Division by zero.** Real division totalises `x/0`; every theorem about a
  quotient carries a `<> 0` hypothesis, or the model function tests the divisor.
* **Images** are a height, a width and a function from (row, column); statements
  only speak about in-range pixels. **1-D arrays, lines, lists of points** are
  Coq lists. A line carries its dtype where the code uses `zeros_like`.
* **Exceptions**: `res A := Ok a | Err e`, with `e` naming the Python class.
* **External routines** (numpy least squares / polyfit / argsort, scipy
  minimize / fsolve / map_coordinates / label / FFT, matplotlib colour maps,
  PIL, h5py, cv2) are function parameters of the model. Where a theorem needs a fact about
  them, the fact is an explicit hypothesis of the theorem (for example "the
  result of `lstsq` minimises the squared residual") and an `Example` shows an
  instance satisfying it. `map_coordinates` with `order=1` is modelled
  concretely (bilinear interpolation).
* **File system**: a finite map from paths to contents; names are strings.

## 2. Layout

All files are in `rocq/theories/` and listed in `rocq/_CoqProject`.

| Python module | model | vocabulary of the statements | lemmas | property theorems |
|---|---|---|---|---|
| post/postprocessing.py | `Post.v` | `Spec.v`, `Lsq.v` | `PostLines*.v`, `PostImg*.v`, `PostPersp.v`, `PostExtra.v` | `Props_Post.v` |
| util/utility.py | `Util.v` | `Spec.v` | `UtilFacts*.v` | `Props_Util.v` |
| losa/loadersaver.py | `Losa.v` on `Text.v` (str), `Fs.v` (paths, files), `Hdf.v` (HDF5 trees), `Json.v` (JSON), `ImgScale.v` | `LosaSpec.v` | `FsFacts.v`, `HdfFacts.v`, `JsonFacts.v`, `LosaFacts*.v` | `Props_Losa.v` |
| prep/preprocessing.py | `PrepImg.v` (images), `PrepPts.v` (points), `Fft.v` (Fourier filter) | `PrepSpec.v`, `FftSpec.v` | `PrepImgFacts*.v`, `PrepFacts*.v` | `Props_Prep.v`, `Props_PrepPts.v`, `Props_Fft.v` |
| prep/linepattern.py | `Line.v` | `LineSpec.v`, `ProfSpec.v`, `ChessSpec.v` | `LineFacts*.v` | `Props_Line.v` ... `Props_Line6.v` |
| proc/processing.py | `Proc.v` (lines 47-713), `ProcPers.v` (716-1651) | `ProcSpec.v`, `CalibSpec.v`, `CalibSpec2.v`, `ProcSpec2.v`, `PersSpec.v` | `ProcFacts*.v`, `CalibFacts.v`, `PersFacts*.v` | `Props_Proc.v`, `Props_Proc2.v`, `Props_Calib*.v`, `Props_Pers*.v` |

Across modules: `GridFacts.v`, `Props_Grid.v` (grids of dots, C99) and
`DotFacts.v`, `Props_Dots.v` (generated patterns, C100).
`MetaFacts.v`, `Props_Meta.v`: text metadata (C101).
`Props_Image.v`: image files (C102).
`JsonSpec.v`, `JsonFacts2.v`, `Props_Json.v`: JSON texts in any layout and their beginnings (C103).
`PolySpec.v`, `PolyRowsFacts.v`, `PolyColsFacts.v`, `Props_PolyRows.v`: grouping by polynomial fits finds whole rows and columns (C104).
`Props_Files.v`: loading from files, names of figures (C105, C106).
`RoundFacts.v`, `Props_Round.v`: rounding errors in double precision (C107).
`DotSpec.v`: border clearing; `ChainFacts.v`, `ChainFacts2.v`, `ChainFacts3.v`, `Props_Chain.v`: the chain from a dot pattern to the model (C108).
`Props_Axis.v`: exchange of the axes (C109).
`Props_Scene.v`: photographs of a scene (C110).
`Props_PersSteady.v`, `Props_PersSteady2.v`: small measuring errors change the perspective model only a little (C138), from the point pairs and from the dots.
`Props_Steady2.v`: small measuring errors change the calibrated model only a little (C137).
`Props_Model.v`: a slightly wrong model corrects slightly wrong (C136).
`Props_Steady.v`: small errors move the centre only a little (C135).
`Props_Centred.v`: centred targets give the true centre (C134).
`Props_TwoSteps.v`: lens and perspective corrected one after the other (C133).
`Props_Marks.v`: accuracy of points corrected with the backward model (C132).
`Props_PadScene.v`: padded and coloured photographs of a scene (C131).
`Props_Exposure.v`: binarization under noise, exposure and contrast (C130).
`Props_Centres.v`: the centre-finding functions under stretched and exchanged axes (C129).
`Props_FourPoints.v`: existence, inverse and change of coordinates of perspective coefficients (C128).
`Props_Slice.v`: slices against pictures, chunks and scenes (C127).
`Props_HeldImage.v`: correction of photographs held differently (C126).
`Props_Held.v`: the whole calibration of a photograph held differently (C125).
`SymFacts.v`, `Props_Symm.v`: photographs held differently (C124).
`MirrorFacts.v`, `Props_Mirror.v`: mirrored photographs and reversed lists of lines (C123).
Sched.v (processes), SchedFacts.v (invariants), Props_Sched.v (C122)
`Props_DotOrder.v`: order of the dots within the lines (C121).
`Props_CalibErr.v`: error propagation of the calibration (C120).
`Props_Chunk.v`: independence of the chunk cut (C119).
`Props_Found.v`: completeness and accuracy of line finding (C118).
`Props_Machine.v`: machine arithmetic (C117).
`Props_Pad.v`: what automatic padding keeps (C116).
`Props_Noise.v`: noise and defective pixels (C115).
`Props_RoundPers.v`: rounding in the perspective correction (C114).
`Props_Tilt.v`: calibrating the perspective of a tilted grid (C113).
`Props_Affine.v`: grouping in another frame (C112).
`Props_Mono.v`: models that do not fold (C111).
`Props_Vanish.v`: vanishing points of lines of any shape (C85).
`StreamFacts.v`: the datasets of a stream file (C74).

Shared: `Base.v` (exceptions, ranges, slices), `Num.v` (numbers), `Img.v`
(images, bilinear interpolation), `NumFacts.v`, `Sorting.v` (argsort),
`Lsq.v`/`LsqEx.v`/`PolyUniq.v` (least squares), `PrepEx*.v` (labelled images
used in examples). The statements in `Props_*.v` use the model functions and
the vocabulary files; the examples beside them show that the hypotheses can be
met.

`tools/` holds the generators of `properties.jsonl` and `MANIFEST.json`, the
mutation harness `seed.py` behind `seeded/LOG.jsonl`, and `assumptions.py`.

## 3. Plan per property

| id | modelled as | proof |
|---|---|---|
| C01 | `unwarp_line_forward` as map over lines/points in Rnum id | algebra; rotation/translation equivariance |
| C02 | dtype-tagged store | unfolding + witness |
| C03 | minimiser oracle with zero-objective hypothesis | algebra with sign of radius |
| C04 | image map with `rnd`, f32 cast, clip, bilinear | monotone rounding keeps integer bounds; convexity of bilinear |
| C05 | same | f32 exact on integers < 2^24; bilinear at grid points |
| C06 | same | linearity of bilinear |
| C07 | fold of writes | induction over the row-major write list |
| C08 | cropping with floor/ceil, int16 cast, bilinear in crop | bilinear locality lemma |
| C09 | `_mapping` with per-chunk crop | monotone column => rows in crop; exactness of f32 subtraction |
| C10 | validation code | case analysis; -1 |
| C11 | int16 wrap | explicit witness 40000 rows |
| C12 | polyfit oracle + argsort oracle | distance formula; permutation; duality |
| C13 | count and ratio, in rounded arithmetic | Flocq monotonicity |
| C14 | homography on lists | field |
| C15 | image map | as C04/C05 |
| C16-C19 | loops as folds of slice writes over Z index functions | membership by induction over loop list |
| C20 | direct | algebra |
| C21 | `pad` sum type; float corners | floor/ceil bounds |
| C22,C23 | shared map functions | extensional equality |
| C24 | step relation over a stream of events (coinductive/nat-indexed) | induction on steps |
| C25 | map | algebra |
| C26-C31 | fits as oracles, exact reals | algebra, uniqueness of least squares |
| C32-C38 | exact reals, oracles for fsolve/minimize | algebra |
| C39-C56 | lists/images, oracles for label/fit | induction, invariants |
| C57-C62 | lists, reals with sin/cos/tan | induction; trigonometric bounds |
| C63-C79 | strings, finite maps, HDF trees, shapes, traces of opened files | induction; pigeonhole for free names; grammar round trip for JSON |
| C80-C82 | lists of box centres and areas, labelling oracle | order statistics, uniqueness of least squares, sums over boxes |
| C83 | float instance, NaN propagation through the fit | computation on symbolic NaN |
| C84-C88 | exact reals; oracles for fit, lstsq, minimize, fsolve, roots | algebra on ideal grids; exchange of roles |
| C89 | Radon projection oracle per angle, true tangent | argmax over grids of angles, order statistics of gaps |
| C90 | image of central differences, border by index clamping | algebra; invariance under affine maps |
| C91, C94 | reals with sin/cos/tan/arctan; interpolation oracle | membership in arange; permutation of pixels |
| C92, C93 | lists of reals, fit oracle | equivariance of each step |
| C95 | lists of fitted coefficients | exact characterisation, small witnesses |
| C96 | discrete Fourier transform as finite sums of sines and cosines | geometric sums of roots of unity |
| C97 | rows of the linear systems as samples (distance, factor) of the dots | least squares minimality; exact solutions by uniqueness of polynomials |
| C98 | maps of the dots (shift, scale, exchange) applied before the calibration | shift: equality of the fits; scale: transport of least squares solutions and uniqueness; exchange: permutation of the samples; coarse search: a grid that refutes it |
| C99 | dots as lists of points, any permutation of the rows | invariant of the grouping pass: each pass removes one row; sorting is unique |
| C100 | the pattern as an image of disks, any labelling of its inverse | disks are the connected components; their moments as finite sums; composition with C99 |
| C101 | texts as lists of ASCII characters; lines and last words as relations | induction over the lines |
| C102 | file contents as arrays; the library stores what it is given | composition of the save and load theorems |
| C103 | grammar of JSON texts as mutually inductive relations, separate from printer and parser | mutual induction over the grammar; the parser gives the same result on longer texts and with more fuel |
| C104 | rows on polynomials, medians and removal of repeats as relations | the exact fit is unique; invariant of the growing loop: all dots of the row between the two fronts are collected, a chained row has no gap wider than the step |
| C105 | loaders on the file-system model | by cases on what is at the path |
| C106 | names of figures with the rule of the plotting library | uniqueness of the name without its last dots; the folder step creates no file |
| C107 | the radial correction with every operation rounded | relative errors counted through products, powers and sums with a majorant; underflow by a threshold; linear interpolation is Lipschitz (summation by parts) |
| C108 | calc_size_distance, slopes, selection, grouping and calibration in sequence on the generated pattern | a disk cut by the edge of the region reaches it by moves along the axes, other disks are not adjacent even through corners; so the cleared region is again a grid of disks; the least-squares line through a product grid is flat |
| C109 | the same functions with exchanged axes | addition commutes under every rounding, so mapped positions are exchanged exactly; forward: characterisation C07 by the last writer, counterexample on 2 x 2 pixels |
| C110 | unwarp_image_backward, correct_perspective_image, calc_coef_backward on pictures of a scene through the modelled lens | interpolation error of functions with bounded slope or bend, added to the rounding bound of C107; exact calibration from C97 |
| C111 | the same functions under a monotone radius function | y F(sqrt(x^2+y^2)) = (y/r) (r F(r)), both factors increase; injectivity from the distance; C09 with the monotonicity derived |
| C112 | the four functions on points in exact arithmetic | the membership test, the scan, the loop, the filter and the sort each commute with the change of frame; fitted values of least squares are unique and parabolas stay parabolas under affine maps |
| C113 | the chain dots -> straight lines -> crossings -> regular grid -> eight coefficients -> corrected image | rows and columns of the plane are shown on straight lines (C32), the undistorted grid is an affine image of the grid (C33), four points in general position determine the homography (C35), and the composed matrix is one; then C110 |
| C114 | the projective quotient with a rounding after every operation | running error analysis with relative errors of the terms (RoundFacts.near); the quotient needs the denominator not to cancel |
| C115 | the two image corrections with linear interpolation | the sampled positions do not depend on the pixels; the weights are non-negative, sum to one and vanish one pixel away |
| C116 | calc_pad of Util.v with the fitted forward model as a parameter | C21_auto bounds the corners; every pixel is dominated, on its own side, by a corner with a larger radius and hence a larger factor. The counterexample is computed by hand. |
| C117 | the two point and the two image corrections over the machine number instance `Mach pw` | each machine operation equals the rounded real operation while magnitudes stay below 2^1023; C107 and C114 then apply |
| C118 | local extrema, tilted profiles and the cross-point functions | near a line only that line is seen, so the nearest sample wins; elsewhere either a brighter sample is near or the window is flat; C60, C61 and C91 do the rest |
| C119 | chunk and image correction over reals with exact or double rounding | every chunk row is a row of the corrected projections (C09); the order of rows comes from C111 and the rounding bound of C107 |
| C120 | the fitted coefficients as best polynomial (C97) | Pythagoras for the least-squares minimum; Lagrange's formula for the values elsewhere |
| C121 | lists of lines; fits as least-squares oracles | the least-squares problem is unchanged by a permutation of its rows and has one solution |
| C122 | Sched.v models each save function as a process over the file system with one step per system call; a schedule is any list of process numbers. Proved by an invariant over schedules (SchedFacts.v): the process keeps what it knows because the steps of the others do not touch its names, and a measure bounds its turns. The step model is shown equal to the functions of Losa.v. |
| C123 | signs of the two axes and reversal of the two lists of lines; calibration as in C97, C98 | fitted parabolas flip (refit), gaps, window, spacing and optimisation are symmetric; least squares on permuted samples |
| C124 | motions of an image as exchange, signs and offset of pixel coordinates; images labelled by any correct labelling | the motion carries connected sets to connected sets, hence dots to dots; masses, centroids, boxes, neighbour distances and medians follow; the central region and cleared objects commute with turning |
| C125 | motions as in C124; clear rows and columns as in C99 | the motions of C124 act on dots as an affine map with coefficients 1 and -1. Clear rows are the hypotheses of C99; the image of clear rows under the map, with the lists reversed where needed, is again clear, so the grouping finds exactly it. The calibration follows by composing the equivalences of C98, C121 and C123.  |
| C126 | the corrected picture in exact arithmetic is a tent-weighted sum at the clamped position of the model | tent weights, clamping and the radial map commute with each motion; induction over the motions; C107 bounds both computed pictures against this one |
| C127 | the slice and the picture sample the same picture at the unrounded and at the rounded position | C08_slice_double gives the slice as a rounded sample; samples are Lipschitz (C107), averages of pixels and monotone; C110 and C119 give the scene and the chunk |
| C128 | coefficients as 3x3 matrices with 1 in the corner | existence by barycentric coordinates, uniqueness by independence of the corners; C35_unique identifies the result of the program; products of matrices for undoing and for changes of coordinates; sampling and clamping commute with motions |
| C129 | fits of stretched and exchanged lines | transport of least-squares solutions along linear maps of the coefficients; argmax of sign changes and argmin of curvatures are unchanged; both roots of the difference of two parabolas are transported as an unordered pair; a straight line fitted to a permuted and stretched list of points |
| C130 | binarization on two photographs, median filter as a rank filter | the k-th smallest value is monotone and 1-Lipschitz, by counting the values below a bound; complement of a binary picture and the majority rule |
| C131 | padded photograph of a scene | translation of the radial map with its centre, interpolation inside a part of a picture reads that part only, single precision rounding keeps integer bounds, C110, C116 and C22 |
| C132 | unwarp_line_backward with any minimiser | points on one ray, lower bound of the slope of r F(r), C110 for the picture |
| C133 | lens and camera before the five functions of the documented chain | C132 and uniqueness of the radius for the lines, C113 for the coefficients, C110 at all contributing pixels and convexity of interpolation for the picture |
| C134 | the centre finders on symmetric lines; lens as an arbitrary function of the radius | uniqueness of least-squares parabolas under the half turn, so that curvatures and intercepts seen from the centre are odd and the mean of the middle pair is a straight line through the centre |
| C135 | the centre finders on lines whose dots all move | closed form of the least-squares parabola and line (normal equations and Cramer's rule), an algebra of functions continuous at the given dots, stability of the sign change under small movements, induction on the updates |
| C136 | the corrections with two models at once | splitting the difference of the positions into the parts due to centre, coefficients and radius, a Lipschitz bound of the polynomial, and C110 for the picture |
| C137 | centre and coefficients as one function of the dots | least-squares parabolas by Cramer's rule and the undistorted line positions in closed form, both continuous; a bound of polynomial coefficients by the values at separate places turns small normal equations into close coefficients; C135 for the centre and C136 for the corrected positions |
| C138 | perspective coefficients as a function of the point pairs | Gaussian elimination bounds a linear system without kernel from below; the normal equations at the moved points then bound the change of the solution; quotients with a denominator away from zero for the positions; every stage of the routine that makes the pairs (fits, crossings, common slope, distances, optimised distance, lattice) as a continuous function of the dots |

No property in the list is judged inexpressible.

## 4. What is modelled and what is not

Modelled function by function: every function of the six modules except the
drawing inside `save_plot_image`, `save_plot_points`, `save_residual_plot` and
`__check_font` (only the names, folders and files they touch are modelled).

External routines are parameters. The theorems assume of them only what their
hypotheses say:

* least squares (`np.polyfit`, `np.linalg.lstsq`): the result minimises the
  squared residual. Instances: `LsqEx.v`.
* `np.argsort`: a permutation that sorts. `np.roots`, `optimize.fsolve`,
  `optimize.minimize`: stated per theorem (exact on quadratics, or relative to
  the residual left).
* `ndi.label`, `regionprops`, Otsu threshold, border clearing, opening, hole
  filling, median filter, `ndi.zoom`, `ndi.rotate`, Gaussian filters, Radon
  transform, cubic interpolation, `curve_fit`: arbitrary functions, with a
  locality, shape or labelling hypothesis where one is needed.
* `fft2`/`ifft2`: arbitrary shape-preserving filter in C54-C62, C89-C94;
  the exact discrete Fourier transform in C96.
* `sin, cos, tan, arctan, exp`: arbitrary where the statement is about
  doubles, the true functions where it is about geometry.
* PIL, h5py, pickle, json of CPython, matplotlib, cv2: described in the
  comments of `Losa.v`, `Hdf.v`, `Json.v`, `Util.v`.

Simplifications, each repeated at the definition concerned: text is ASCII; paths
are POSIX; `np.uint8` of a value outside 0..255 wraps modulo 256; NaN and
infinity do not exist in the real instances; `int()` of an infinite value is not
modelled; dtype promotion is modelled only where the code depends on it
(`zeros_like`, `int16`, `float32`, `uint8`). There is no concurrency in
discorpy; the video loop of C24 and file histories of C63-C79 are the only
sequences of effects.

## 5. Trusted base

* Coq 8.16.1 kernel, including the VM where `vm_compute` is used, and the
  kernel's primitive integers and floats where listed.
* Standard-library axioms. `rocq/ASSUMPTIONS.txt` (written by
  `tools/assumptions.py`) gives what `Print Assumptions` lists for each theorem
  of the manifest. The groups are:
  * closed under the global context;
  * subsets of `ClassicalDedekindReals.sig_forall_dec`,
    `ClassicalDedekindReals.sig_not_dec`,
    `FunctionalExtensionality.functional_extensionality_dep` (construction of
    the real numbers) and `Classical_Prop.classic` (through the standard
    library's analysis and Flocq);
  * the primitives `PrimFloat.*`, `PrimInt63.*` and, in some, the
    `FloatAxioms.*_spec` of the standard library, for theorems about doubles.
  No axiom is declared in this development.
* The faithfulness of the model to the Python text: each definition cites the
  lines it models and states its simplifications.
