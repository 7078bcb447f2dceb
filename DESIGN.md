# Formal model of falco-python in Rocq (Coq 8.16.1)

## Layout

* `rocq/theories/Base.v`, `RBase.v`, `StrBase.v`, `CBase.v`: result type (exceptions as values), Python integer / slice
  semantics, 2-D arrays, finite sums, strings, complex numbers.
* For each area X: `XModel.v` is the Gallina transcription of the code, every definition citing the lines of /repo it models;
  `XSpec.v` is the small independent vocabulary in which the properties are stated; `XProofs*.v` hold lemmas; `XProps.v`
  holds only the property theorems (`Theorem Cnn_...`), with `Print Assumptions` and a non-vacuity `Example` beneath.
* A theorem called `..._refuted` (or whose statement is a negation) shows that a natural reading of the property is FALSE of the code;
  it stands next to the strongest version that holds.

## Modelling conventions

* Python ints are `Z` (or `nat` for sizes). Exceptions are values (`Raise e`). Functions that mutate an object
  return the new object. Aliasing is modelled explicitly (a heap of arrays) exactly where the property is about aliasing.
* 2-D numpy arrays are a row count, a column count and an index function; equality is
  pointwise on in-range indices. Slices and indices follow the Python rules (negative indices, clipping); broadcasting is modelled
  where the code relies on it.
* Floating point numbers are ideal reals (`R`) / complex numbers (Coquelicot's `C`, used as pairs of reals). Rounding, overflow and
  NaN are NOT modelled.
* `np.fft.fft2/ifft2` are the sums that define the discrete Fourier transform; the matrix Fourier transforms are the matrix products
  of the code. np.roll, fftshift, ifftshift, np.rot90, np.interp, boolean indexing, np.unique, argmin are transcribed.
* Parts that are not modelled appear as universally quantified parameters (`Section` variables or record fields), so each theorem holds for
  every behaviour of them.
* Worker pools (`PoolModel.v`): any interleaving of the accesses to shared fields that tasks make, results collected in task order or in
  completion order, as the code does.


## Per property: what is modelled, how it is proved

(statements in properties.jsonl; exact theorem names in MANIFEST.json)

| id | files X (XModel.v, XProofs*.v, XProps.v) | model | proof | limits, refuted readings |
|---|---|---|---|---|
| C01 | Util | pad_crop with slice arithmetic and dynamic argument checks | pixel-wise arithmetic (lia) |  |
| C02 | Util | same | centre-offset characterisation; witness | the unrestricted docstring claim is refuted by a witness; the corrected law is proved |
| C03 | Util | same, universe of Python values | case analysis |  |
| C04 | Util | offcenter_crop over the same arrays | case analysis on padding regimes |  |
| C05 | Util | ceil_even, ceil_odd, pad_to_even_square over R | Int_part facts |  |
| C06 | Util | bin_downsample | regrouping double sums by induction |  |
| C07 | Util | create_axis over R | arithmetic |  |
| C08 | Util | nextpow2 over R | log / power facts |  |
| C09 | Util | allcomb | induction on the list of lists |  |
| C10 | Check | each checker over a universe of Python values | case analysis |  |
| C11 | Config | Object as data and attribute maps; merging | induction on trees | deepmerge's documented strategies are part of the trusted base; refuted for nested Objects |
| C12 | Config | same | induction over access histories; refutation | the naive agreement is refuted by C12_agreement_refuted |
| C13 | Config | evaluation with in-progress marks | measure; characterisation of cycles | Python's recursion limit is not modelled; expressions only catch AttributeError |
| C14 | Sched | schedule generator over rows | induction over rows, prefix sums |  |
| C15 | Ad, Ctrl | init / wrapup gather and scatter | list positions | packing of DM 8 refuted (uses DM 9's command) |
| C16 | Sched | grid search, argmin over product list | induction | the image stored by the parallel branch is refuted |
| C17 | Sched | planned EFC step function | invariant over history |  |
| C18 | Jac | culling on lists | filter / sort characterisation | re-culling an already culled Jacobian and culling without relinearisation refuted by witnesses |
| C19 | Wfsc | heap with shallow copies | invariant; refutation | Title claim refuted (weights compound between relinearisations); the exact power, and correctness right after a relinearisation, proved for every schedule. |
| C20 | Wfsc | whole iteration as fold | invariant | For unconstrained mirrors staying in range, and DM8/9 always; constrained mirrors: exact step relation and the C21 specification. Nitr=0 and out-of-range start refuted. |
| C21 | Dm | enforce_constraints over maps | pointwise | bound with bias, chained ties, dead+pinned, dead list cached: refuted by witnesses |
| C22 | Dm | same | pointwise; witnesses | duplicates in the pin list grow without bound (refuted boundedness); large bias refuted |
| C23 | Dm | rot90 / flip index maps | arithmetic |  |
| C24 | Dm | rounding over R | up / Int_part |  |
| C25 | Spect | spectral weights over R | sums | Sum >= 1 always, = 1 when distinct wavelengths are > 10 pm apart; unrestricted claim refuted. |
| C26 | Spect | modal weights | sums, list positions | With piston listed first; other orders are refuted (rejected, or piston dropped). |
| C27 | Setup | spatial weights | sums; refutation | Exact weight formula for every grid and annulus list; 'last annulus wins' refuted. |
| C28 | Setup | cropping loop with fuel shown sufficient | loop invariant | Termination, exact result, exact exception condition, conservation for non-negative masks; loss of the unchecked first ring refuted. |
| C29 | Setup | key strings | case analysis | ASCII strings. Acceptance, canonical spelling, idempotence, dispatch; pwp-kf refuted. |
| C30 | Setup | doubling loop | invariant | Least power of two and termination; three refuted readings. |
| C31 | Est | probing as state machine | invariant; refutations | flagUseJac=True (shape error) and the Kalman-filter branch are not modelled; refuted variants: other DM zeroed, exception leaves dm_ind, unequal DMs, schedules |
| C32 | Est, Probe | probe phases and surface fit | trigonometry, linear algebra | for surfFitMethod 'lsq' with a regular response matrix; axis 'm' (TypeError in the code) not modelled |
| C33 | Est | 2x2 least squares over R | algebra | numpy's singular-value cut-off in pinv not modelled; refuted for collinear probes |
| C34 | Img | pool interleavings | permutation invariance; constructed race | every interleaving of the shared-field accesses of a FIFO thread pool; general races refuted by constructed schedules; model.full is a parameter, random noise a parameter |
| C35 | Img | state-passing | case analysis | model.compact is a parameter that may raise; restoration on failure refuted |
| C36 | Prop | relay as index map | modular arithmetic | exact arrays over any element type; odd-size pixel-centred claim refuted |
| C37 | Prop | DFT sums | geometric sums of roots of unity | np.fft modelled by its defining sums over exact complex numbers; odd sizes refuted |
| C38 | Prop | angular-spectrum transfer function | DFT inversion, exponent laws | np.fft modelled by its defining sums over exact complex numbers; even and odd sizes |
| C39 | Prop | MFT as matrix products | double sums | exact complex arithmetic; mft_f2p with different vertical step refuted |
| C40 | Ad, Jac | column updates for ties | induction | self-ties, inactive members and list-typed act_ele refuted |
| C41 | Jac | parallel assembly | permutations; refutation | parallel assembly proved for full lists; proved to raise IndexError for culled lists / single DM (refuted) |
| C42 | Dm | scatter-add of stamps | induction |  |
| C43 | Src | mask index, numpy indexing | arithmetic; refutation | The property is refuted in general and the exact domain is proved: slices are shared exactly by pairs sharing a wavelength, but the index is offset by Nsbp+1-2*Nwpsbp, so it is right for every pair only when Nsbp = 2*Nwpsbp-1 (or one of the two is 1); otherwise the first pair wraps to a wrong mask or the last pair raises IndexError. |
| C44 | Mask | software mask geometry over R | real arithmetic, atan facts | np.arange/meshgrid/angle in exact arithmetic; clocked squares and odd pixel-centred sizes refuted |
| C45 | Wfsc | heap / aliasing of histories | exact characterisation; refutation | Proved as it holds; the aliasing (unmodulated record already weighted, ev.IincoEst overwritten) and score pixels outside the correction region are refutations. |
| C46 | Ctrl | normal equations with abstract solver | algebra of sums of squares |  |
| C47 | Ctrl | state-passing | case analysis |  |
| C48 | Ad, Ctrl | bounds construction | interval arithmetic | refuted for DM weight other than 1 |
| C49 | Dm | neighbour loop | induction over loop order | repair of violations refuted for the pinned numpy |
| C50 | Dm | gain formulas | derivatives (is_derive) |  |
| C51 | Dm | fit by linear system | linear algebra | refuted for influence functions without point symmetry |
| C52 | Dm | rotation matrices | trigonometry |  |
| C53 | Dm | stamp index arithmetic | lia over reals and ints |  |
| C54 | Jac | hstack of columns | list positions | single active actuator raises (refuted) |
| C55 | Img | perfect estimate, pool model | permutations; refutations | model.full is a parameter; two-star images and non-square parallel runs refuted |
| C56 | Img | normalisation table, pool model | interleavings; refutation | full-model table only; HLC race refuted |
| C57 | Prop | MFT pair as sums | orthogonality | exact complex arithmetic; odd pixel-centred sizes refuted |
| C58 | Hole | dark-hole spec of several regions | real arithmetic | mask counts replaced by or; vertical offset refuted |
| C59 | Opt | full_Fourier and compact_general, all coronagraph types | linearity plane by plane | full_Fourier and compact_general; the pupil down-sampling routine of the compact model is a parameter assumed linear |
| C60 | Opt | same | algebra | positive factors; vortex case for the compact model |
| C61 | Opt | same | algebra (Babinet) | compact model; equal beam sampling in the pupil planes |
| C62 | Opt | same | linearity, cis laws | both models |
| C63 | Opt | same | cis laws | both models |
| C64 | Opt | both models, one setup | plane by plane equality; refutation | agreement theorem, refutation for the scaled mask, behaviour on names and flags |
| C65 | Opt | vortex propagators forward and reverse | exchange of sums, conjugates | exact arithmetic |
| C66 | Src | wrappers that build the input field | shift laws; refutation | PROPER layouts are not modelled; Zernike maps are a parameter. |
| C67 | Grad | cost and reverse pass | derivative of the exact cost; adjoint of each step | HLC and a DM2 stop are excluded (the code's gradient ignores the outer transmission resp. the stop); the claim at commands other than the stored one is refuted by a witness |
| C68 | Diff, Resamp | differentiable DM forward and reverse | exchange of sums | rot = 0; odd arrays and resampling refuted by witnesses |
| C69 | Diff | lattice and influence convolution | index arithmetic, DFT convolution | rot = 0 and upsample = 1; odd DMs refuted |
| C70 | Cmd | command vector to cost and gradient | chain rule over C67, C68; refutation | assumes no pinned, tied or saturated actuators, no orientation, no resampling; the claim that the result is the gradient of the returned cost is refuted by a witness |
| C71 | Poke | precomp and lyot of jacobians.py for one mode and actuator: box indexing, partial MFT, sub-array, relays, Babinet term | centred coordinates: box sums = whole-array sums; chain rule through linear operators (kernels) | regularised by-peak variant (minimizeNI) not modelled; boxes smaller than the array are an approximation when the DMs are out of the pupil, and no claim is made there |
| C72 | Win | scipy tukey (table), np.interp and gen_tukey_for_vortex, as functions on reals | table entries equal the ideal window by cases on the index; interpolation lies between neighbouring entries; Lipschitz bound of the raised cosine | 0 < alpha <= 1 and at least two table entries |
| C73 | Thin | solver of thinfilm.py (transfer matrices over complex numbers with NumPy's square root branch); the specification is the boundary-value problem (ODE in each layer, interface conditions, radiation condition) | uniqueness for the ODE by Coquelicot derivatives; transfer matrices carry (u, weight*v); flux non-increasing with depth gives R+T<=1 | passive media, last medium not totally reflecting; the solver's choice of branch in total reflection is outside the hypotheses |
| C74 | Film, FilmRef | calc_complex_trans_matrix with its material names and interpolated tables (the two data files are parameters), calc_complex_occulter with np.unique | from C73 for the four-layer stack; np.unique covers each pixel's triple exactly | exact reals; contents of the two data files are a parameter constrained to n, k > 0 |
| C75 | Tab | gen_complex_trans_table against a file system (absent / half written / whole per name), with the reads of a call at four arbitrary moments and writes by any process | invariant over all reachable file systems: every whole file was computed by a request of that name | file names are tuples of formatted fields; exact decimal rounding |
| C76 | Hlc | hlc.py's look-up of masks, with NumPy indexing of boxes and tables, and the cube cached on mp | induction over actuators; round-to-nearest bounds; composition with C74 and C75 | corners of boxes whole numbers; boxes inside the array; hlc.setup_fpm* (construction of influence functions) not modelled |
| C77 | Optv | set_optional_variables (falco/setup.py:120-460) transcribed statement by statement (146 guarded assignments) and run by a small interpreter over attribute stores (OptvModel.v); documented defaults, owned attributes and required parameters in OptvSpec.v | generic frame/keep/presence lemmas by induction on the statement list, a stability check for idempotence, and a type system whose soundness gives acceptance (OptvProofs*.v); the checks on the concrete program are evaluated by the kernel | Aliasing between arrays is not visible (values are immutable in the model); C77_list_dm_ind_refuted records the list-typed dm_ind case. |
| C78 | Vx | VxModel.v: jacobians.vortex and its part of precomp (on top of PokeModel), mask.falco_gen_vortex_mask | centred-coordinate representation of arrays, periodic reindexing of the DFT sums, linearity, derivative of the phase (Coquelicot); Parseval for the energy | exact for DMs in pupil planes or a whole-array box, and a Lyot array no larger than the FFTs; the compact model itself refines the vortex with MFTs (mft_p2v2p), which the code's Jacobian does not |
| C79 | Prp | PrpModel.v: prop_begin, prop_lens, prop_propagate, prop_add_phase, prop_multiply, prop_radius of falco/proper | algebra of the beam parameter over C; the lens phase in centred coordinates by cases on the reference surfaces | thin-lens phase for even grids (prop_run accepts powers of two); proper.rayleigh_factor = 1 as prop_begin sets it |
| C80 | Prp | PrpModel.v: prop_ptp, prop_wts, prop_stw, prop_qphase, prop_select_propagator, prop_propagate | invariant: every wavefront is the propagated field of its waist; normalised DFTs and quadratic phases are invertible; reindexing of the DFT in centred coordinates | between a waist and the far region, and within the Rayleigh range; between two far planes it is the composition of both through the waist |
| C81 | Prp | PrpModel.v with prop_define_entrance and prop_end | Parseval for each propagator, induction over the list of calls |  |
| C82 | Ell | EllModel.v: falco_gen_ellipse over exact numbers | the radial coordinate is half the norm of a linear map; the triangle inequality bounds its change over a pixel, and the first differences at the corner are bounded from below | exact arithmetic; np.linspace is its exact values; Nbeam > 0 |
| C83 | Zrn | ZrnModel.v: the equations as data, with the text they print to, and the loops with their breaks; ZrnSpec.v: mean over the disc as an iterated Riemann integral, radial polynomial by factorials, Noll's numbering | orthogonality by finite differences, angular integrals by Coquelicot, text lengths by computation | text as printed by COMPACT; eval of an equation that was cut is not modelled |
| C84 | Zrn | ZrnModel.v: the 22 formulas | each formula is a scale, a polynomial in r with coefficients in the ratio, and an angular factor; the radial integrals are identities of rational functions; square roots by their squares | exact arithmetic |
| C85 | ZrnMap | ZrnModel.v: the pixel loops, the checks before them, applying the map | polar coordinates recovered from atan2; grid size from ceil_even | exact arithmetic; proper.n is the grid of the wavefront; the division by a zero radius is excluded |
| C86 | Sav | SavModel.v: the globals save_state, save_state_lam, statefile, n, total_original_pupil and the directory as a list of named files; the five functions, glob and os.remove; a command sequence interprets any history. | C86_saves, C86_never_resumes (invariant: every marked wavelength has a state file), C86_wavefront_unchanged, C86_second_call_fails, C86_file_names, C86_overwritten, C86_files_never_deleted, C86_end_before_init, C86_off_after_end, C86_example. | np.load without allow_pickle on an object array raises ValueError (numpy >= 1.16.3; requirements.txt has 2.1.3): an assumption on numpy stated in SavModel.v. |
| C87 | Run | RunModel.v: prescriptions are functions over a heap of arrays (prop_run scales and adds in place), wavelength sources, the parameter lists of prop_run_multi and pool.map with any completion order. | C87_grid_sizes (bit argument for n & (n-1)), C87_broadband, C87_monochromatic, C87_one_row_fails, C87_shared_array_refuted, C87_order_free, C87_pairing, C87_lengths_refused, C87_example. | Grid sizes are Python integers; reading the file and importing the prescription are outside the model. |
| C88 | Cub | CubModel.v: both C routines (rounding, clamping, kernels, 5x5 sum), the row partition and writes of the threads with schedules as permutations of the writes, and the Python wrapper with memory order and flattened coordinates. | C88_biquadratic, C88_pixels, C88_linear, C88_border, C88_border_overshoot, C88_threads_partition, C88_schedule_free, C88_square_grid, C88_points_refuted, C88_oblong_grid_refuted, C88_c_order, C88_example. | Real arithmetic; complex and integer dtypes of the wrapper are not modelled. |
| C89 | Dmc | DmcModel.v: the fine actuator grid, the 'same' convolution, the tilt matrices and back projection, the interpolator as a parameter, slice assignment with NumPy broadcasting. | C89_projection, C89_plain_cubic (the compiled routine meets the interpolator hypotheses), C89_surface, C89_linear, C89_oblong_fails, C89_refused, C89_example. | FFT convolution is exact convolution over the reals; SciPy's map_coordinates enters as an interpolator exact and linear (hypotheses); FIT, file reading and prop_add_phase are not modelled. |
| C90 | Dmc | DmcModel.v: cshift, poke_center, stamp_sample; DmSurfModel.v: Mrot. | C90_turns_agree, C90_pixel_centred, C90_stamps, C90_interpixel_refuted, C90_interpixel_turns, C90_example. | The resampling of the turned influence function itself (griddata, splines) is not modelled; C23 covers the orientation options. |
| C91 | Thp | ThpModel.v: off_loop over stars and sub-bands around the wrapper of SrcModel; calc_thput with both metrics, masks and failures | ThpProps.v: induction over the loop, C66's source shift, np.max characterised, monotone masked sums, fields factored out of the normalisation | EE disc around the source refuted; cancellation of I00 refuted for unequal factors |
| C92 | Noi | ThpModel.v: the draws are arbitrary functions of exposure and pixel; rounding half to even; failures of np.random.poisson | NoiProps.v: rounding error summed over exposures, exact decomposition | dark-subtracted reading refuted |
| C93 | Utu | UtuModel.v: set_utu_scale_fac as a state transformer over the actuator lists of DMs 1 and 2 and the scale, calling the Jacobian assembly model of JacModel.v | C93_scale from jac_serial_ok and the maximum of the diagonal; the refutations from jac_parallel_fails and the squeeze/hstack model | restoration after a failed call refuted by C93_parallel_leaves_subset_refuted, C93_wrong_length_refuted, C93_single_actuator_refuted, C93_tie_cut_refuted |
| C94 | Rot | RotModel.v: the 3x3 and 4x4 matrices, inverse by adjugate, projection of one point, warp with the interpolation of scipy as a parameter, render and backprop around the unrotated model of DiffModel.v | matrix identities by ring and cos2+sin2=1; C94_quarter_turn_gradient by re-indexing the pixel sums along the turn; refutations on explicit surfaces | gradient of a tilted DM, clocking, odd centre and two angles refuted by C94_tilted_gradient_refuted, C94_clocking_refuted, C94_odd_centre_refuted, C94_two_angles_refuted |
| C95 | Zsn | ZsnModel.v: the state of mp that the tasks change (entrance field, Zernike list, zval, polaxis), the two kinds of task as state transformers around a full model given as parameter, the serial loop, the pool with its chunks, the arrays and averages | invariant of the task loops (results do not depend on what earlier tasks leave), lookup lemmas for the arrays; refutations from explicit states | refuted cases: C95_single_mode_refuted, C95_two_zones_refuted, C95_no_polarisations_refuted, C95_failure_leaves_aberration_refuted, C95_second_call_refuted |
| C96 | Ni | NiModel.v: no_fpm and the minimizeNI branches on top of the Lyot Jacobian (PokeModel.v) and the compact model (OptModel.v) | the poke's pupil field is the derivative of the pupil field (C71's lemmas behind an arbitrary linear stage); the sum over the box is the on-axis sample of the last Fourier transform after re-indexing by the rotations; quotient rule; the brightest pixel stays the brightest near zero volts by continuity | refuted cases: C96_hlc_peak_refuted, C96_interpixel_stop_displaced, C96_needs_stop_at_pupil_resolution |
| C97 | Gsf | GsfModel.v: gen_surf_from_act as a function of the object's state (constraints, cached differentiable model, its stored intermediate size) and the gradient's last step, on top of DiffModel.v, RotModel.v, DmcModel.v, DmSurfModel.v | an invariant on the cached model: equal to the one the first call would have built for the last heights; the renderer's Fourier resampling evaluated at the samples of the influence function; adjointness of C94 re-indexed by the orientation's permutation | refuted cases: C97_scale_refuted, C97_gradient_turned_refuted |
| C98 | Err | ErrModel.v: the five functions on top of the wavefront (PrpModel.v) and the cubic-convolution library with threads (CubModel.v); scipy's interpolation is any function exact at pixels; prop_magnify is a parameter | coordinates of the resampling grid computed at each pixel, exactness of the interpolation at integers and for quadratics (C88), two half shifts of even and odd arrays; cosine and sine of quarter turns are integers | refuted cases: C98_odd_grid_refuted, C98_border_refuted, C98_rotate_threads_refuted, C98_examples_refuted, C98_amplitude_fails, C98_one_coordinate, C98_rotate_keywords_fail |
| C99 | Mag | MagModel.v: the four functions over the reals, rounding as each version does it, scipy's or the cubic interpolation as a parameter | the 13 pixels contain the kernel's support for every rounding to less than one pixel; the kernel at integers; sums of the kernel at half pixels against Machin's bounds on pi; DFT of a constant | refuted cases: C99_library_refuted, C99_complex_border_refuted, C99_conserve_refuted, C99_uniform_refuted, C99_empty_refuted, C99_pixellate_size, C99_pixel_mtf (odd sizes) |
| C100 | Psd | PsdModel.v: the function over the reals with the random numbers as a parameter, the FITS file as a value | Hermitian part of a DFT, inverse DFT, orthogonality and Parseval from PropProofs; the RMS by rescaling | refuted cases: C100_mirror_sign_refuted, C100_odd_mean, C100_quarter_turn_refuted, C100_rotation_refuted, C100_max_frequency_refuted |
| C101 | Ap | ApModel.v: the functions over the reals, the number of samples a parameter | the change of the radial coordinate within a pixel is below the edge width for every ellipse and rotation; the turned box contains the ellipse | refuted cases: C101_off_grid, C101_no_radius, C101_odd_grid_refuted, C101_dm_stop_refuted, C101_dm_stop_history |
| C102 | Rect | RectModel.v: scan conversion of polygons over the reals, with the painters of both functions | an invariant of the two chains of a parallelogram: one vertex per line is enough; sections in the coordinates along the edges; each line paints its overlap with every pixel | refuted cases: C102_turns_same_refuted, C102_sides_refuted, C102_polygon_last_column_refuted, C102_polygon_right_refuted |
| C103 | Simp | SimpModel.v: both branches over the reals on top of the models of C82 and C102 | the struts' rectangles in the coordinates of the pupil; an induction over the list of struts; C82 and C102 for the values; arctan2 by its polar identity; a zero-height rectangle scanned line by line | refuted cases: C103_short_struts_refuted, C103_odd_refuted, C103_zero_width_refuted, C103_smooth_unmoved_refuted |
| C104 | Poly | RectModel.v: the scan conversion already modelled for C102, for any list of vertices; PolySpec.v: the hull as the set of weighted means of the vertices | an invariant of each chain from line to line; the ends of a line are points of the hull, and the edges' half-planes bound it; sums over the lines | refuted case: C104_collinear_refuted |
| C105 | Oct | OctModel.v: the profile, minimum and maximum over the grid, the three shapes, over the reals | alternating-series bounds of the sine give positivity and the fourth-power bound of the amplitude; monotone rescaling | refuted cases: C105_half_width_refuted, C105_odd_refuted |
| C106 | Acc | AccModel.v: the operations on the shifted array, with numpy's broadcasting from OptModel | shifting twice on even grids is the identity, on odd grids one pixel; polar form from atan2; cases of prop_propagate | refuted case: C106_odd_sum_refuted |
| C107 | Ngon | NgonModel.v: the corners, the rows and the writes of prop_polygon, with numpy's IndexError beyond the grid | the two programs do the same from the same corners; the corners turn clockwise, so prop_irregular_polygon does not reverse them; then C104 | refuted case: C107_odd |
| C108 | Fit | FitModel.v: scipy's convolution with mirrored edges, the loop with fuel | the misfit falls by a factor of 1.01 in each further round and is at least 1e-15 while it goes on; induction over the rounds for the way it stops; convolving is linear | refuted case: C108_surface_refuted |

## Modelled and not modelled

Modelled (by area): `util.py` padding, cropping, axes, binning, combinations; `check.py`; `config/` Object, merging and evaluated
expressions; `ctrl.py` schedule, packing, EFC and AD-EFC solvers' linear algebra, grid search, culling, DM bounds; `dm.py` constraints, neighbour rule, gains, surfaces
from influence functions, surface fit, orientation; `diff_dm.py` (unrotated); `prop.py`; `mask.py` (software masks); `setup.py` spectral, modal and spatial weights,
Lyot-stop cropping, key values, array sizes, probes; `est.py` pairwise probing and perfect estimate; `imaging.py` sub-band images, expected images, normalisation table;
`model/models.py` full_Fourier, compact_general, wrappers, Jacobian assembly, compact_reverse_gradient; `wfsc.py` loop, weights, histories.

Not modelled: floating-point rounding; the PROPER library and the layouts that call it (a parameter); segmented-mirror, thin-film and mask
geometry drawn by PROPER; spline warping of rotated DMs (`diff_dm.warp`, PROPER's DM tilt); file input / output, plots, logging; L-BFGS-B (scipy) itself;
random number generators (noise is a parameter); the Kalman-filter estimators; pupil down-sampling in the compact model is a parameter assumed linear.
Areas with further simplifications say so in the comment of the definition.

## Defects of the code found while modelling (each is a theorem or noted in the table)

* pad_crop chaining fails through a smaller odd/even size (C02); weights compound on a stored Jacobian (C19).
* Full-model mask index is offset unless Nsbp = 2*Nwpsbp - 1 (C43); full-model Zernike phase lacks 1j (C66); full LC with fpm_scale uses
  the unscaled vertical step (C64).
* Sharing of mp.F3.full.mask between workers races for the HLC (C34, C56); culled actuator lists break parallel Jacobian assembly (C41).
* compact_reverse_gradient: sensitivity of the stored fields is frozen, DM2 stop and HLC outer transmission ignored (C67), regularisation
  adds the gradient instead of the command (C70).
* diff_dm: not adjoint for odd arrays or when resampling (C68), lattice of odd DMs off by 1.5 pitches (C69).
* Control weights and bounds: AD-EFC bounds wrong for DM weight other than 1 (C48); packing of DM 8 uses DM 9 (C15).
* Estimated incoherent light is aliased and overwritten by the bookkeeping (C45); the parallel grid search stores an image of another command (C16).

## Trusted base

* Coq 8.16.1's kernel (and `coqc`, the OCaml compiler, the machine). `vm_compute` is used for concrete examples and decidable facts.
* The transcription: that each definition says what the cited Python lines do, under the conventions above. deepmerge's documented strategies
  (C11), numpy's documented indexing, and `np.fft` being the DFT belong here.
* Libraries used: the standard library and Coquelicot (definitions and lemmas on C and derivatives; it adds no axiom of its own here).
* Axioms: only the standard library's, namely `ClassicalDedekindReals.sig_forall_dec`, `ClassicalDedekindReals.sig_not_dec` (construction of
  the reals), `FunctionalExtensionality.functional_extensionality_dep` and `Classical_Prop.classic` (used by `exp`, `atan`, derivatives in the library).


### What Print Assumptions lists for each theorem

**Closed under the global context** (123 theorems): C01_pad_crop_places_by_centre_offset, C02_pad_crop_chain_equals_direct, C02_pad_crop_chain_order_irrelevant, C02_pad_then_crop_is_identity, C02_unrestricted_chaining_refuted, C03_numpy_integer_sizes_accepted_refuted, C03_pad_crop_accepts_exactly_valid_sizes, C03_pad_crop_py_result, C09_allcomb_count, C09_allcomb_lexicographic_position, C09_allcomb_members, C108_mirror, C10_boolean, C10_bytes_name_raises_given_class_refuted, C10_centering, C10_dictionary, C10_is_dict_is_bool, C10_nonnegative_scalar_integer, C10_oneD_array, C10_positive_excludes_nan_refuted, C10_positive_scalar_integer, C10_real_array, C10_real_nonnegative_scalar, C10_real_positive_scalar, C10_real_scalar, C10_scalar_integer, C10_string, C10_threeD_array, C10_twoD_array, C10_twoD_square_array, C11_default_kept, C11_keyword_wins, C11_lists_extended, C11_merge_method, C11_nested_object_merged_refuted, C11_new_keyword_kept, C12_agree_partial, C12_agreement_refuted, C12_attribute_access, C12_item_access, C12_reading_item_data_erases, C14_schedule_expands, C15_bad_numbers, C15_delta_applied, C15_delta_missing, C15_dm8_pack_refuted, C15_dm8_values_refuted, C15_labels, C15_negative_numbers, C15_pack, C15_positions_cover, C15_positions_distinct, C15_unpack, C16_every_pair_is_tried, C18_when, C20_zero_iterations_refuted, C21_chained_ties_refuted, C21_dead_and_pinned_refuted, C21_dead_list_read_once_refuted, C21_limits_with_bias_refuted, C22_large_bias_refuted, C22_pin_list_bounded_refuted, C23_bijection, C23_distinct, C23_other_keywords_rejected, C23_poke_cube_orientation, C23_surface_orientation, C29_accepted_are_dispatched, C29_accepted_estimator_always_estimates_refuted, C29_accepts_exactly, C29_canonical, C29_idempotent, C31_every_dm_restored_refuted, C31_exception_leaves_dm_list, C31_other_dm_zeroed, C31_restores, C31_schedule_unusable, C31_sequence, C31_succeeds, C31_unequal_dms_fail, C32_axis_alternates, C32_axis_of_pair, C32_pair_same_axis, C34_mask_race_refuted, C34_polarisation_race_refuted, C36_bad_centering, C36_centre_kept_even, C36_centre_moves_odd_refuted, C36_count_is_iteration, C36_counts_add, C36_one_relay_pixel, C36_one_relay_reversed, C36_two_relays_identity, C40_inactive_first_member_refuted, C40_inactive_second_member_refuted, C40_list_act_ele_refuted, C40_self_tie_refuted, C40_ties_per_dm, C41_filled_unique, C41_parallel_fails_on_culled_list_refuted, C41_parallel_fails_single_dm_refuted, C41_parallel_full, C41_parallel_order_irrelevant, C41_serial, C43_offset, C43_right_grid, C43_single, C43_too_few_subbands, C43_too_many_subbands, C47_candidate_evaluation_restores, C49_neighbor_rule, C49_repairs_violations_refuted, C49_single_actuator_refuted, C54_columns_match_control_vector, C54_single_actuator_refuted, C54_stack, C55_other_polarisations_refused, C55_polarisation_choice, C68_needs_render, C69_wrapper_fits, C83_text, C88_threads_partition, C98_written_needs_scale

**functional_extensionality_dep** (5 theorems): C13_acyclic_no_error, C13_circular_iff_no_meaning, C13_ring_detected, C13_terminates_and_restores, C13_value_is_meaning

**sig_forall_dec** (12 theorems): C106_odd_sum_refuted, C19_each_mode_weighted_once, C21_prescription_unique, C35_commands_restored, C35_on_failure, C55_field_any_schedule, C55_nonsquare_parallel_refuted, C56_hlc_race_refuted, C56_norm_any_schedule, C56_norm_serial, C93_more_actuators, C93_unique

**functional_extensionality_dep, sig_forall_dec** (155 theorems): C04_offcenter_crop_window, C04_offcenter_crop_window_integer_centre, C05_ceil_even_is_least_even, C05_ceil_odd_is_least_odd, C05_pad_to_even_square_lossless, C06_bin_downsample_block_means, C06_bin_downsample_preserves_total, C06_non_divisible_rejected_refuted, C07_create_axis_antisymmetric, C07_create_axis_samples, C101_samples, C104_one_value, C104_range, C106_complex, C106_divide_undoes, C106_operations, C106_sum, C108_poke, C16_empty_grid_rejected, C16_grid_search_applies_best, C16_parallel_image_refuted, C17_planned_follows_schedule, C17_relative_entry_needs_grid_search, C19_correct_only_for_trivial_weights, C19_right_after_relinearisation, C19_used_jacobian, C19_weights_compound_refuted, C20_start_outside_limits_refuted, C21_dead_actuators_are_zero, C21_every_actuator_as_prescribed, C21_other_commands_unchanged, C21_tied_pairs_are_equal, C21_voltages_within_limits, C22_history, C22_idempotent_after_any_history, C22_second_call_changes_nothing, C24_error_bounds, C24_heights_are_multiples_of_the_step, C24_methods_accepted, C25_centres_span_band, C25_centres_symmetric, C25_close_wavelengths_refuted, C25_final_weights_total, C25_full_band_is_trapezoid_grid, C25_merged_list_covers, C25_merged_list_sorted, C25_merged_total_at_least, C25_merged_weights_exact, C25_subband_weights, C25_wavelength_weights_in_subband, C26_one_order_accepted_refuted, C26_order_quirk_refuted, C26_piston_not_first_refuted, C28_both_masks, C28_crop_keeps_transmission, C28_exception, C28_first_ring_lost_refuted, C28_result, C28_terminates, C30_shortest_wavelength, C32_coordinates, C34_any_schedule, C34_image_depends_on_schedule_refuted, C34_noise_dropped_refuted, C34_schedules_exist, C34_second_star_dropped_refuted, C34_serial_is_weighted_sum, C34_summed_parallel_is_serial, C34_summed_serial, C35_expected_image, C35_restored_on_failure_refuted, C36_rotates_interpixel, C36_rotates_pixel_even, C40_tied_columns, C40_tied_response_conserved, C42_bad_model_type, C42_linear, C42_skipping_error, C42_surface_is_superposition, C43_same_slice_iff_same_wavelength, C44_odd_pixel_axis_refuted, C44_same_axis_as_image, C45_score_outside_correction_refuted, C45_unmodulated_record_already_weighted_refuted, C48_bounded_optimiser_keeps_voltages_in_range, C48_dm8_dm9_frozen, C48_weighted_dm_refuted, C51_asymmetric_refuted, C51_fit_reproduces_surface, C53_stamps_fit, C55_field_serial, C55_images_one_star, C55_images_two_stars_refuted, C69_odd_dm_refuted, C69_wrapper_positions, C70_commanded_heights, C75_name_blind, C75_name_tells, C76_compact_frozen, C76_cube_slices, C76_full_previous_subband, C76_nearest, C76_stale_mask_example, C76_surface, C76_surface_error, C85_norm_maps_scale, C86_end_before_init, C86_example, C86_file_names, C86_files_never_deleted, C86_never_resumes, C86_off_after_end, C86_overwritten, C86_saves, C86_second_call_fails, C86_wavefront_unchanged, C87_broadband, C87_example, C87_grid_sizes, C87_lengths_refused, C87_monochromatic, C87_one_row_fails, C87_order_free, C87_pairing, C87_shared_array_refuted, C88_biquadratic, C88_border, C88_border_overshoot, C88_c_order, C88_example, C88_linear, C88_oblong_grid_refuted, C88_pixels, C88_points_refuted, C88_schedule_free, C88_square_grid, C89_plain_cubic, C90_stamps, C91_ee, C91_ee_grows, C91_equal_factors, C91_hmi, C91_hmi_bounds, C91_image, C91_metric_names, C91_pupil_count, C91_pupil_power, C93_nothing_chosen, C93_parallel_leaves_subset_refuted, C93_scale, C93_single_actuator_refuted, C93_tie_cut_refuted, C93_wrong_length_refuted, C96_interpixel_stop_displaced, C98_library

**functional_extensionality_dep, sig_forall_dec, sig_not_dec** (253 theorems): C07_radial_grid_is_distance_from_centre, C100_turned_example, C101_annular, C101_annular_size, C101_aperture, C101_babinet, C101_circular, C101_dm_stop, C101_dm_stop_history, C101_dm_stop_refuted, C101_ellipse, C101_no_radius, C101_odd_grid_refuted, C101_off_grid, C102_aperture, C102_one_value, C102_polygon_agrees, C102_polygon_columns, C102_polygon_example, C102_polygon_last_column_refuted, C102_polygon_right_refuted, C102_range, C102_sides_example, C102_sides_refuted, C102_turns_opposite, C102_turns_same_refuted, C102_value, C103_clocking, C103_one_value, C103_struts_reach, C104_closed_example, C104_collinear_example, C104_collinear_refuted, C104_dark, C104_example, C104_few, C104_same_hull, C104_value, C105_errors, C105_meters, C105_odd_refuted, C105_range, C105_round, C105_value, C105_yaxis, C106_example, C106_radius, C106_to_focus, C106_units, C107_errors, C107_example, C107_odd, C107_same, C107_value, C108_finds, C108_finds_example, C108_never_worse, C108_stops, C108_surface, C108_surface_refuted, C108_terminates, C108_unit, C108_unit_example, C27_last_annulus_wins_refuted, C27_single_annulus, C27_spatial_weight, C27_weight_vector, C32_phases, C32_rect_zeros, C33_least_squares, C37_energy, C37_inverse_even, C37_inverse_even_other_order, C37_inverse_odd_refuted, C37_round_trip_general, C38_back_propagation, C38_composes, C38_energy, C38_linear, C38_not_square, C38_plane_wave, C38_zero_distance, C39_f2p_is_fourier_sum, C39_f2p_linear, C39_f2p_vertical_step_refuted, C39_p2f_is_fourier_sum, C39_p2f_linear, C39_p2f_not_square, C50_fourier_gain_is_slope, C50_linear_and_errors, C50_quadratic_gain_is_slope, C52_never_outwards, C52_proper_rotation, C52_rotation_product, C57_odd_refuted, C57_round_trip_is_relay, C68_history_free, C68_odd_size_refuted, C68_resampled_refuted, C68_resampled_size, C68_resampled_uniform, C68_reverse_is_transpose, C69_nonsquare_rejected, C69_superposition, C71_dead_actuator_zero, C72_even, C72_exact_at_samples, C72_flat_centre, C72_no_taper, C72_range, C72_zero_outside, C73_fresnel, C73_refuses, C73_split_layer, C73_zero_layer, C74_entrywise, C74_layers, C74_no_titanium_without_metal, C74_normal_dispersion, C74_occulter_pixelwise, C74_occulter_total, C74_reference_indices, C74_refuses, C74_table_shape, C75_compact_slices, C75_first_call, C75_full_slices, C75_histories, C75_later_calls, C75_provenance, C75_torn_forever, C76_compact_mask, C76_first_subband_opaque, C77_acceptable_succeeds, C77_counters_reset, C77_default_directories, C77_default_vectors, C77_fixed_defaults, C77_idempotent, C77_increments, C77_list_dm_ind_refuted, C77_mas_conversion, C77_missing_refused, C77_only_documented, C77_script_values_kept, C77_stash, C77_voltage_limits, C79_begin, C79_lens_fails, C79_lens_law, C79_propagation_law, C79_radius_continuous, C79_states, C79_thin_lens, C79_to_plane_then_lens_fails, C80_compose, C80_fresnel_from_waist, C80_fresnel_to_waist, C80_plane_waves, C80_reverse, C80_tiny_steps_lost, C81_intensity, C81_propagate_conserves, C82_centred_coverage, C82_coverage, C82_fails, C82_magnified, C82_range, C82_tilted, C82_tilted_example, C83_numbering, C83_numbering_example, C84_limit, C89_across_pupil, C89_example, C89_linear, C89_oblong_fails, C89_projection, C89_refused, C89_surface, C90_example, C90_interpixel_refuted, C90_interpixel_turns, C90_pixel_centred, C90_turns_agree, C92_dark_not_subtracted, C92_faint_lost, C92_no_exposures, C92_noise_terms, C92_nonnegative, C92_refusals, C92_value, C94_agrees_with_proper, C94_centre, C94_clocking_refuted, C94_edge_on, C94_four_angles, C94_obliquity_one_axis, C94_odd_centre_refuted, C94_projection, C94_quarter_turn_gradient, C94_render, C94_render_sample, C94_rotation_matrix, C94_tilted_gradient_refuted, C94_two_angles_refuted, C94_when, C96_needs_stop_at_pupil_resolution, C96_peak_is_brightest, C97_example, C97_first_call_sets_sampling, C97_gradient_turned, C97_gradient_turned_refuted, C97_gradient_unturned, C97_interpixel_ignored, C97_later_settings_ignored, C97_proper_centring, C97_proper_remembers_nothing, C97_scale, C97_scale_refuted, C97_twice, C98_amplitude_fails, C98_border_refuted, C98_examples_refuted, C98_kind_required, C98_odd_grid_refuted, C98_one_coordinate, C98_placed, C98_quadratic_resampled, C98_quarter_turn, C98_rotate_keywords_fail, C98_rotate_threads_refuted, C98_square, C98_written, C98_yshift_ignored, C99_border, C99_complex_border, C99_complex_border_refuted, C99_conserve_refuted, C99_empty_refuted, C99_example, C99_library_agrees, C99_library_refuted, C99_linear, C99_pixel_mtf, C99_pixellate_size, C99_pixellate_uniform, C99_quick, C99_same_sample, C99_size, C99_unit, C99_value, C99_value_complex

**classic, functional_extensionality_dep, sig_forall_dec, sig_not_dec** (179 theorems): C08_nextpow2_least_exponent, C100_amplitude, C100_applied, C100_band, C100_file, C100_max_frequency_refuted, C100_mirror_sign_refuted, C100_odd_mean, C100_quarter_turn_refuted, C100_rms, C100_rotation_refuted, C100_spectrum, C100_spectrum_turned, C100_zero_mean, C103_clear, C103_dark, C103_errors, C103_example, C103_odd_refuted, C103_order, C103_range, C103_short_struts_refuted, C103_smooth_inside, C103_smooth_outside, C103_smooth_range, C103_smooth_unmoved_refuted, C103_smooth_value, C103_value, C103_zero_width_example, C103_zero_width_refuted, C105_applied, C105_centre, C105_eighth_order, C105_even, C105_example, C105_half_width_refuted, C106_polar, C18_cull, C18_cull_without_relinearisation_refuted, C18_dark_jacobian, C18_no_cull_changes_nothing, C18_second_cull_refuted, C30_all_wavelengths_refuted, C30_compact_padding, C30_compact_sampling_refuted, C30_full_padding, C30_no_diffraction, C30_no_dm_power_of_two_refuted, C32_rect_amplitude, C32_rect_error, C32_rect_pairs_opposite, C32_rotation, C32_square_amplitude, C32_square_pairs_opposite, C33_collinear_refuted, C33_dark_probe_ignored, C33_exact_recovery, C43_full_model_refused, C44_accepts, C44_centre_excluded, C44_clocked_square_cut_refuted, C44_coordinates, C44_covers_round, C44_covers_square, C44_default_size_even, C44_selects_exactly, C46_command_minimises_cost, C46_command_unique, C46_gain_never_increases_cost, C58_correction_region, C58_score_in_corr, C58_score_inside_correction, C58_score_vertical_offset_refuted, C58_scoring_displaced_refuted, C58_scoring_region, C58_succeeds, C58_vertical_offset_alone_fails, C59_compact_failure, C59_compact_linear, C59_compact_succeeds, C59_full_failure, C59_full_linear, C59_full_succeeds, C60_compact_rescales, C60_compact_zero, C60_full_rescales, C60_full_zero, C60_vortex_zero, C61_transparent, C62_compact_piston, C62_full_piston, C62_intensity, C63_compact_sum, C63_full_sum, C64_avc, C64_models_agree, C64_models_agree_vortex, C64_scaled_refuted, C64_surface_errors, C64_unknown_name, C65_linear, C65_total, C65_vortex_adjoint, C66_compact_layout_scaling, C66_compact_offaxis_is_star, C66_compact_weight, C66_full_offaxis_is_star, C66_full_unnormalised_is_shifted, C66_full_weight, C66_full_zero_norm, C66_layout_decides_scaling, C66_unknown_layout, C66_wrappers_agree, C66_zern_default, C67_cost_value, C67_dm2_stop_refuted, C67_gradient_at_stored_command, C67_gradient_elsewhere_refuted, C67_gradient_uses_stored_sensitivity, C70_gradient_at_candidate, C70_gradient_at_stored_command, C70_penalty_gradient_refuted, C70_regularisation_only_rescales, C71_dm1_column_is_derivative, C71_dm2_column_is_derivative, C72_close_to_ideal, C73_agrees_with_maxwell, C73_energy, C73_reference_height, C73_solution_exists, C74_bare_substrate, C74_no_gain, C74_reference_plane, C75_stale_reference, C78_dead_actuator_zero, C78_dm1_column_is_derivative, C78_dm2_column_is_derivative, C78_fft_size, C78_no_charge_is_rotation, C78_vortex_lossless, C83_distinct, C83_orthonormal, C83_rms, C84_example, C84_orthonormal, C84_rms, C85_custom_last_mode, C85_custom_last_mode_example, C85_custom_map, C85_example, C85_map, C85_norm_maps, C85_obscured_map, C85_refused, C85_scalar_refused, C91_bands, C91_missing_star, C91_offset_moves_stars, C95_again, C95_example, C95_failure_leaves_aberration_refuted, C95_no_aberration, C95_no_polarisations_refuted, C95_nonnegative, C95_parallel_same, C95_parallel_untouched, C95_proper_example, C95_restored, C95_second_call_refuted, C95_shape, C95_single_mode_refuted, C95_two_zones_refuted, C95_value, C95_value_proper, C96_column_is_derivative, C96_estimate_normalised, C96_hlc_peak_refuted, C96_peak_jacobian, C99_uniform_refuted
