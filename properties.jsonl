{"id": "C01", "title": "pad_crop places every pixel by its offset from the array centre", "statement": "util.pad_crop(a, (r,c), e) returns an array of exactly r x c in which the pixel at offset (dy,dx) from the centre pixel (index n//2 on each axis) equals the input pixel at the same offset from the input's centre when that exists, and e otherwise.", "quantifier": "every input shape (>=1x1), every requested positive size, every element value and fill value", "why_tests_cant": "even/odd size combinations in two axes and crop/pad mixes are infinite; tests sample a few", "anchors": ["falco/util.py:pad_crop"]}
{"id": "C02", "title": "pad_crop calls chain in any order", "statement": "Chaining pad_crop through an intermediate size B gives the same result as going directly, whenever B keeps every pixel common to input and output; in particular pad-then-crop back is the identity. The docstring's unrestricted claim ('no particular order') is false when the intermediate size is smaller.", "quantifier": "every triple of shapes and every chain of intermediate shapes", "why_tests_cant": "the law quantifies over all chains of sizes", "anchors": ["falco/util.py:pad_crop"]}
{"id": "C03", "title": "pad_crop rejects exactly the invalid sizes", "statement": "pad_crop raises TypeError exactly when the input is not 2-D, the fill is not a real scalar, or the size is not a pair of positive Python ints; otherwise it returns. (A numpy integer scalar, although explicitly whitelisted, is rejected.)", "quantifier": "every dynamically-typed argument tuple", "why_tests_cant": "argument space is all Python values", "anchors": ["falco/util.py:pad_crop", "falco/check.py"]}
{"id": "C04", "title": "offcenter_crop returns exactly the requested window", "statement": "util.offcenter_crop(a, cr, cc, r, c) returns an r x c array whose pixel (i,j) is a[i-r//2+round(cr), j-c//2+round(cc)] when inside the input and 0 otherwise, even if the window is partly or totally outside the input.", "quantifier": "every input shape, every integer centre (negative/outside included), every output size", "why_tests_cant": "the padding arithmetic has many regimes and Python negative slices wrap silently", "anchors": ["falco/util.py:offcenter_crop"]}
{"id": "C05", "title": "ceil_even / ceil_odd are the least even / odd integers not below the input; pad_to_even_square is lossless", "statement": "ceil_even(x) is the smallest even integer >= x, ceil_odd(x) the smallest odd integer >= x, and pad_to_even_square returns an even square array containing the whole input at its centre.", "quantifier": "every real x; every 2-D array", "why_tests_cant": "uncountably many inputs", "anchors": ["falco/util.py:ceil_even", "falco/util.py:ceil_odd", "falco/util.py:pad_to_even_square"]}
{"id": "C06", "title": "bin_downsample averages disjoint blocks and preserves total flux", "statement": "When the factor divides both sides, bin_downsample returns block means, so dsfac^2 times the output sum equals the input sum; sizes not divisible by the factor are supposed to raise ValueError but the exception is built and not raised, so they are silently truncated.", "quantifier": "every array size, contents and positive integer factor", "why_tests_cant": "flux conservation is a statement over all arrays; the missing raise affects every non-divisible size", "anchors": ["falco/util.py:bin_downsample"]}
{"id": "C07", "title": "create_axis yields a uniform, correctly centred axis", "statement": "create_axis(N, step, centering) has N samples spaced by step; with pixel centring (or odd N) sample N//2 is 0; with interpixel centring and even N the axis is antisymmetric about the array middle.", "quantifier": "every N>=1, every step>0, both centrings", "why_tests_cant": "all sizes and steps", "anchors": ["falco/util.py:create_axis"]}
{"id": "C08", "title": "nextpow2 returns the least exponent", "statement": "For nonzero x nextpow2(x) is the unique integer p with 2^(p-1) < |x| <= 2^p; for 0 it is 0.", "quantifier": "every real number", "why_tests_cant": "uncountable domain", "anchors": ["falco/util.py:nextpow2"]}
{"id": "C09", "title": "allcomb enumerates the Cartesian product in lexicographic order", "statement": "allcomb(l1..ln) contains exactly the n-tuples with k-th component drawn from lk, its length is the product of lengths, and the tuple at position sum(ik*prod_{m>k} len lm) is (l1[i1],..,ln[in]).", "quantifier": "every number of lists and every content", "why_tests_cant": "unbounded number and length of inputs", "anchors": ["falco/util.py:allcomb"]}
{"id": "C10", "title": "Argument checkers are exact and transparent", "statement": "Every checker in falco.check returns its argument unchanged when it belongs to the documented class, raises the caller's exception class otherwise, and raises CheckException when the name or exception argument is itself unusable; nothing else can happen.", "quantifier": "every Python value in a model of the Python/numpy value universe", "why_tests_cant": "the value universe is infinite and subtyping (bool as int, numpy scalars, nan/inf) makes corner cases", "anchors": ["falco/check.py"]}
{"id": "C11", "title": "Constructor keywords override defaults without losing other settings", "statement": "Creating a config Object with keywords: a keyword replaces the default of the same name, except that lists are extended and dicts are merged key by key at every depth; every default not named is kept; merge() does the same with the new value winning. (Nested config Objects are not merged: a keyword Object drops all defaults inside.)", "quantifier": "every default configuration tree and every keyword tree", "why_tests_cant": "recursive merge over arbitrary trees", "anchors": ["falco/config/Object.py"]}
{"id": "C12", "title": "Attribute and item access on a config Object agree", "statement": "After any history of o.k=v, o['k']=v and reads, o['k'] returns the last item assignment, and o.k the last attribute assignment if there is one, else a method of that name, else what o['k'] returns. So they agree with the last assignment of either kind if k is only ever assigned as an item, and not in general (attribute assignment is invisible to item access and shadows later item assignments). Reading o['data'] erases all items.", "quantifier": "every sequence of assignments and keys", "why_tests_cant": "histories are unbounded", "anchors": ["falco/config/Object.py"]}
{"id": "C13", "title": "Derived config expressions terminate, detect cycles, and leave no residue", "statement": "Reading an Eval entry of a config terminates for every reference graph; it returns the value the definitions give, and raises the circularity ValueError iff they give none (in particular for every ring of references, and never for acyclic references); and after the read (normal or exceptional) no entry is marked in progress, so the same read repeated gives the same answer.", "quantifier": "every graph of entries referencing entries", "why_tests_cant": "cycles of any length, arbitrary graph shapes", "anchors": ["falco/config/Eval.py", "falco/config/Object.py"]}
{"id": "C14", "title": "EFC schedule rows expand to exactly the requested iterations", "statement": "efc_schedule_generator(rows) returns Nitr = sum of the row counts, and for iteration i in row k: the row's regularisation, the row's DM digits, relinearise/grid-search flags set exactly as the row's 4th/5th columns prescribe.", "quantifier": "every list of schedule rows", "why_tests_cant": "unbounded row lists and counts", "anchors": ["falco/ctrl.py:efc_schedule_generator"]}
{"id": "C15", "title": "Controller vector packing and unpacking are inverse", "statement": "ctrl.init concatenates the active actuators of the DMs in use and labels each entry with its DM; ctrl.wrapup puts entry k of a solution into exactly the actuator it came from, scaled by that DM's weight, and zero everywhere else; at the end of the iteration each DM in use is given its command plus its delta and the others keep theirs.", "quantifier": "every subset of DMs, every active-actuator list, every solution vector", "why_tests_cant": "quantifies over all actuator subsets and vectors", "anchors": ["falco/ctrl.py:init", "falco/ctrl.py:wrapup"]}
{"id": "C16", "title": "Grid search applies the best tested command", "statement": "The grid-search controller evaluates every (regularisation, gain) pair and returns the command, regularisation and gain of one with minimal expected mean intensity (the first such).", "quantifier": "every list of regularisations and gains, every evaluation oracle", "why_tests_cant": "oracle-valued search over arbitrary lists", "anchors": ["falco/ctrl.py:_grid_search_efc"]}
{"id": "C17", "title": "Planned EFC follows the schedule and remembers the last best regularisation", "statement": "In the planned controller, at iteration i a grid search runs exactly when i is in the grid-search list; a complex entry uses last best + real part and a real entry is used as is; the last best value is that of the most recent grid search.", "quantifier": "every schedule, every history of iterations, every grid-search oracle", "why_tests_cant": "history-dependent state over unbounded iterations", "anchors": ["falco/ctrl.py:_planned_efc"]}
{"id": "C18", "title": "Culling keeps exactly the strong actuators and keeps Jacobian and actuator lists consistent", "statement": "After culling, the active list is the sorted set of actuators whose relative Jacobian strength reaches the threshold or that are tied; the Jacobian has exactly one column per active actuator, in the same order.", "quantifier": "every Jacobian, threshold, tie list, and sequence of relinearise/DM-change events", "why_tests_cant": "iteration histories and arbitrary matrices", "anchors": ["falco/ctrl.py:cull_weak_actuators"]}
{"id": "C19", "title": "Spatial weighting is applied once per iteration to the stored Jacobian's values", "statement": "The Jacobian used by the controller at each iteration is the model Jacobian times the pixel weights, regardless of how many iterations ago it was linearised. (False: the in-place multiplication goes through a shallow copy, so weights compound between relinearisations.)", "quantifier": "every relinearisation schedule and iteration count", "why_tests_cant": "aliasing bug visible only over histories", "anchors": ["falco/ctrl.py:apply_spatial_weighting_to_Jacobian", "falco/wfsc.py:loop"]}
{"id": "C20", "title": "DM command = initial command + sum of applied deltas, and history columns are the true commands", "statement": "After n control iterations the command of each DM equals its initial command plus the sum of the deltas applied, and the history array's column k holds the command at the start of iteration k (column Nitr the final one).", "quantifier": "every number of iterations, every controller output, every subset of active DMs", "why_tests_cant": "unbounded histories", "anchors": ["falco/wfsc.py:loop", "falco/wfsc.py:store_dm_command_history", "falco/ctrl.py:wrapper"]}
{"id": "C21", "title": "Voltage constraints hold after enforcement", "statement": "After enforce_constraints: dead actuators have zero command, total voltages lie within [Vmin,Vmax], tied pairs are equal, all other commands are unchanged. (Exact conditions proved; bound with nonzero bias, chained ties and dead+pinned overlap refuted.)", "quantifier": "every command map, bias map, limits, pinned/tied/dead lists", "why_tests_cant": "all maps and overlapping lists", "anchors": ["falco/dm.py:enforce_constraints"]}
{"id": "C22", "title": "Enforcing constraints is idempotent on the command and only ever adds pins", "statement": "Running enforce_constraints a second time does not change the command; the pinned set never loses a pin. (The pinned list itself grows by duplicates without bound: refuted boundedness.)", "quantifier": "every state, any number of repetitions", "why_tests_cant": "unbounded repetition", "anchors": ["falco/dm.py:enforce_constraints"]}
{"id": "C23", "title": "DM orientation options are exactly the eight symmetries of the square", "statement": "The orientation keyword maps actuator (i,j) of an N x N command to the position given by the named rotation/flip; every option is a bijection (no actuator lost or duplicated) and distinct options are distinct maps.", "quantifier": "every N, every command map, all 8 options plus invalid strings", "why_tests_cant": "all sizes and contents", "anchors": ["falco/dm.py:gen_surf_from_act"]}
{"id": "C24", "title": "Surface discretisation error is bounded by the LSB", "statement": "discretize_surf returns multiples of the LSB; within half an LSB (round), within one LSB below (floor), above (ceil), towards zero (fix); unknown method rejected.", "quantifier": "every real surface height and LSB", "why_tests_cant": "real-valued domain", "anchors": ["falco/dm.py:discretize_surf"]}
{"id": "C25", "title": "Normalised spectral weights", "statement": "falco_set_spectral_properties gives subband weights and wavelength weights that sum to one, band centres symmetric about lambda0, and the unique-wavelength list covers each simulated wavelength.", "quantifier": "every number of subbands and wavelengths per subband, every bandwidth", "why_tests_cant": "all sizes; tolerance-based deduplication", "anchors": ["falco/setup.py:falco_set_spectral_properties"]}
{"id": "C26", "title": "Jacobian modal weights are normalised per Zernike mode and ordered by star, sub-band, Zernike", "statement": "falco_set_jacobian_modal_weights gives, for each star, one mode per (sub-band, Zernike) pair with positive weight, ordered by star, then sub-band, then Zernike; the weights of each kept Zernike sum to 1 over the sub-bands; a Zernike list without piston or with repeats is rejected. (Rejection of every unordered list, and room in the intensity history for all modes, are refuted.)", "quantifier": "every spectral/Zernike/star configuration", "why_tests_cant": "arbitrary sizes", "anchors": ["falco/setup.py:falco_set_jacobian_modal_weights"]}
{"id": "C27", "title": "Spatial weights equal the configured annulus weights", "statement": "For each dark-hole pixel the squared spatial weight is the product of the intensity weights of all annuli [inner, outer) containing it (1 when none does), pixels outside the dark hole get 0, and the weight vector of a star is that map restricted to the dark hole in row-major order times the star's weight. (Overlapping annuli multiply; 'the last one wins' is refuted.)", "quantifier": "every grid, dark-hole mask and list of annuli with non-negative weights", "why_tests_cant": "arbitrary overlaps and sizes", "anchors": ["falco/setup.py:falco_set_spatial_weights"]}
{"id": "C28", "title": "Lyot-stop cropping keeps the transmission and is maximal", "statement": "crop_lyot_stop always terminates. It returns a centred crop of side N-2k such that cropping two more pixels loses more than 1e-7 of the transmission, while every tested size from N-4 down to the result loses at most 1e-7 (so a 0/1 mask loses nothing when k >= 2). It raises TypeError exactly when every window down to the smallest keeps all but 1e-7 (e.g. an empty mask). The first ring is cropped without being checked: a mask open up to its border loses it (refuted).", "quantifier": "every square mask", "why_tests_cant": "loop termination and all array contents", "anchors": ["falco/setup.py:crop_lyot_stop"]}
{"id": "C29", "title": "Key values are normalised and validated", "statement": "verify_key_values accepts a configuration iff centering, coronagraph, layout, estimator and controller are documented options up to letter case, rewrites each to the documented spelling, raises ValueError otherwise, changes nothing when repeated, and every accepted estimator and controller has an implementation to dispatch to. (Refuted for the accepted 'pwp-kf', which computes nothing from ItrStartKF on.)", "quantifier": "every string value of every keyword", "why_tests_cant": "all strings", "anchors": ["falco/setup.py:verify_key_values", "falco/est.py:wrapper", "falco/ctrl.py:wrapper"]}
{"id": "C30", "title": "DM array padding is the least sufficient power of two", "statement": "falco_set_dm_surface_padding terminates and, when a DM is in use, returns the least power of two that is at least twice the largest DM array in use and meets the angular-spectrum sampling condition for both distances at the shortest wavelength. (Refuted: power of two when no DM is in use; the condition at the longer wavelengths; the compact model's own DM1-DM2 condition, because the full model's pixel size is used.)", "quantifier": "every DM array size, geometry, pixel size and wavelength list", "why_tests_cant": "loop over unbounded doubling", "anchors": ["falco/setup.py:falco_set_dm_surface_padding"]}
{"id": "C31", "title": "Pairwise probing leaves configuration and DM commands unchanged", "statement": "After a normal return of pairwise probing, the list of DMs in use and the command of each DM used for control or probing are what they were before, and in between exactly one unprobed exposure and one exposure per probe is taken for every star and sub-band, each at the entry commands plus that probe. (Not true of a DM outside that set: it is flattened for good. An exception leaves the DM list altered. Any probe schedule, or DM2 probing with DMs of unequal size, makes the call fail.)", "quantifier": "every control DM set, probe DM, and command map", "why_tests_cant": "histories and subsets", "anchors": ["falco/est.py:pairwise_probing"]}
{"id": "C32", "title": "Probe commands come in opposite pairs", "statement": "For every probe pair, the plus and minus probe commands are exact negatives (square and rectangular probes, least-squares surface fit), both have their phase discontinuity on the same axis, pair k of N has phase k*pi/N, and the rotation option is a true rotation. With alternating axes odd iterations start on y and even ones on x. Target heights never exceed 4 pi lambda0 sqrt(Inorm), reach it at the centre for phase 0, and vanish on the zero lines of the rectangle's transform.", "quantifier": "every number of probe pairs and probe geometry", "why_tests_cant": "unbounded number of pairs", "anchors": ["falco/est.py:pairwise_probing", "falco/est.py:gen_pairwise_probe", "falco/est.py:gen_pairwise_probe_square"]}
{"id": "C33", "title": "Pairwise estimation recovers the field exactly under its model", "statement": "The batch estimate at a pixel is the shortest least-squares solution over the pairs that moved the intensity. If intensities are I(+/-)=|E +/- dE|^2+Iinco with probe fields dE of correct phase that are not all collinear and |E|^2 is not above the threshold, the estimate is exactly E and the incoherent estimate exactly Iinco. (Collinear probes: not recovered.)", "quantifier": "every complex field, probe set and pixel", "why_tests_cant": "real-valued algebraic identity", "anchors": ["falco/est.py:pairwise_probing"]}
{"id": "C34", "title": "Sub-band image is a weighted sum independent of evaluation order", "statement": "get_sim_sbp_image returns the weighted sum over wavelengths, polarisations and stars, and the threaded version returns the same value in every interleaving of its workers when there is one polarisation state and (HLC) one mask, or one worker; otherwise (refuted) two workers overwrite a shared field and some schedule evaluates a term with the wrong polarisation or mask. get_summed_image run in parallel equals the serial one for one star, no image noise and wavelengths equal or more than 10 pm apart (refuted with several stars or with noise).", "quantifier": "every interleaving of workers, every list of wavelengths and polarisations", "why_tests_cant": "schedules are unbounded", "anchors": ["falco/imaging.py:get_summed_image", "falco/imaging.py:get_sim_sbp_image"]}
{"id": "C35", "title": "Expected-image evaluation restores the DM commands", "statement": "get_expected_summed_image returns with every DM command exactly equal to its entry value and, on dark-hole pixels, the sub-band weighted intensity of the estimate plus the modelled change of field between the commands before and after the delta (0 elsewhere). Restoration after a failure of the model is refuted.", "quantifier": "every DM command and delta, every DM subset", "why_tests_cant": "all maps and subsets", "anchors": ["falco/imaging.py:get_expected_summed_image"]}
{"id": "C36", "title": "Optical relay is a parity operation", "statement": "prop.relay with n relays equals n successive single relays, two relays are the identity, and a relay keeps the centre pixel (for even sizes; refuted for odd sizes).", "quantifier": "every square array, every integer relay count", "why_tests_cant": "all sizes and counts", "anchors": ["falco/prop.py:relay"]}
{"id": "C37", "title": "Shifted FFT pairs are mutually inverse", "statement": "ifft2d(fft2d(x)) = x for every even-sized array; for odd sizes the shift order is wrong (refuted).", "quantifier": "every array size and content", "why_tests_cant": "all sizes", "anchors": ["falco/prop.py:fft2d", "falco/prop.py:ifft2d"]}
{"id": "C38", "title": "Free-space propagation composes", "statement": "ptp over 0 is the identity; propagating by z1 then z2 equals propagating by z1+z2; so back-propagation undoes propagation.", "quantifier": "every field, wavelength, distance, size", "why_tests_cant": "continuous domain", "anchors": ["falco/prop.py:ptp"]}
{"id": "C39", "title": "Matrix Fourier transforms are linear and use the stated sampling on each axis", "statement": "mft_p2f and mft_f2p are linear in the field and equal the defining double sum on the stated output coordinates. (mft_f2p uses the xi sampling for eta: refuted when they differ.)", "quantifier": "every field, size and sampling", "why_tests_cant": "all sizes and real parameters", "anchors": ["falco/prop.py:mft_p2f", "falco/prop.py:mft_f2p"]}
{"id": "C40", "title": "Tied actuators share a Jacobian column", "statement": "apply_ties_to_jac adds the second column of each tied pair to the first and zeroes the second, leaving all other columns unchanged, so the total response is conserved.", "quantifier": "every Jacobian, tie list and actuator list", "why_tests_cant": "arbitrary matrices", "anchors": ["falco/model/models.py:apply_ties_to_jac"]}
{"id": "C41", "title": "Parallel and serial Jacobian assembly agree", "statement": "model.jacobian fills column k with the response of the k-th active actuator whatever the worker completion order. (Refuted for the parallel path when the active list is a proper subset.)", "quantifier": "every active-actuator list and mode list, every completion order", "why_tests_cant": "all subsets and schedules", "anchors": ["falco/model/models.py:jacobian"]}
{"id": "C42", "title": "Surface from poke cube is the linear superposition of influence functions", "statement": "gen_surf_from_poke_cube returns the sum over active actuators of VtoH*V*influence placed at the actuator's box; linear in V and restricted to the boxes.", "quantifier": "every V, box geometry and actuator list", "why_tests_cant": "all superpositions with overlaps", "anchors": ["falco/dm.py:gen_surf_from_poke_cube"]}
{"id": "C43", "title": "Full-model mask slice follows the wavelength", "statement": "For a hybrid Lyot coronagraph the slice of the wavelength-dependent mask that model.full uses for a (subband, wavelength) pair is the same for two pairs exactly when their wavelengths are the same, but it lies Nsbp+1-2*Nwpsbp slices away from the slice computed for that wavelength; it is the right slice for every pair exactly when Nsbp = 2*Nwpsbp-1 or one of the two numbers is 1.", "quantifier": "every (subband, wavelength) pair and grid size", "why_tests_cant": "arbitrary grid sizes", "anchors": ["falco/model/models.py:full"]}
{"id": "C44", "title": "Software dark-hole mask selects exactly the configured region", "statement": "falco_gen_SW_mask selects a pixel iff its coordinates lie in the configured annulus/shape and angular sector on the chosen side(s).", "quantifier": "every resolution, field of view, shape, side", "why_tests_cant": "all grid sizes and geometric parameters", "anchors": ["falco/mask.py:falco_gen_SW_mask"]}
{"id": "C45", "title": "Intensity history is the sum of its parts and per-mode histories average to it", "statement": "store_intensities records total = modulated + unmodulated intensity per subband, clipped estimates, with per-star weights applied consistently. (Aliasing makes the stored incoherent part weighted: refuted.)", "quantifier": "every number of stars/subbands/iterations", "why_tests_cant": "histories and aliasing", "anchors": ["falco/wfsc.py:store_intensities"]}
{"id": "C46", "title": "The EFC command is the regularised least-squares optimum", "statement": "For gain 1 the command computed by EFC minimises, over all commands, the weighted predicted dark-hole energy plus 10^log10reg * max(diag(G*G)) * |u|^2; the minimiser is unique as soon as some actuator has a response; for any gain in [0,2] the predicted cost never exceeds that of doing nothing.", "quantifier": "every Jacobian, field estimate, weight vector, regularisation and gain in [0,2], every size", "why_tests_cant": "optimality quantifies over all competing commands", "anchors": ["falco/ctrl.py:wrapper", "falco/ctrl.py:_efc"]}
{"id": "C47", "title": "Evaluating a candidate command leaves the mirrors unchanged", "statement": "Trying one (regularisation, gain) candidate returns the predicted image and delta command and leaves every DM command, in use or not, exactly as before.", "quantifier": "every configuration, solver result and image function", "why_tests_cant": "every solver outcome and DM subset", "anchors": ["falco/ctrl.py:_efc", "falco/ctrl.py:_ad_efc"]}
{"id": "C48", "title": "AD-EFC bounds keep total voltages within limits", "statement": "If the optimiser respects the bounds passed to it, command + bias of every active actuator of DM1/DM2 stays within [Vmin,Vmax] (for unit DM weight; refuted for other weights); DM8 and DM9 get zero bounds and do not move.", "quantifier": "every configuration, every vector within bounds", "why_tests_cant": "all actuator subsets and bias maps", "anchors": ["falco/ctrl.py:_ad_efc"]}
{"id": "C49", "title": "Neighbour rule is checked on every adjacent pair", "statement": "apply_neighbor_rule returns the command map unchanged exactly when no two of the 8-neighbour pairs differ by more than the limit; otherwise it raises ValueError (the documented repair never happens with the pinned numpy), and a 1x1 DM is an IndexError.", "quantifier": "every command map, limit and DM size", "why_tests_cant": "all grids and all pair positions", "anchors": ["falco/dm.py:apply_neighbor_rule"]}
{"id": "C50", "title": "Updated actuator gain is the slope of the calibration curve", "statement": "update_gain_map sets each actuator's gain to the derivative of the documented height(voltage) formula (quadratic or two-term Fourier) at its total voltage; linear calibration leaves it alone; missing coefficients or unknown type raise ValueError.", "quantifier": "every command, bias and set of coefficients", "why_tests_cant": "derivative at every real point", "anchors": ["falco/dm.py:update_gain_map"]}
{"id": "C51", "title": "Least-squares surface fit reproduces the surface at every actuator", "statement": "Poke heights returned by fit_surf_with_dm_lsq with the matrix of build_prefilter produce, through the influence function, exactly the requested height at each actuator, provided the influence function is point-symmetric (refuted otherwise: the matrix is transposed).", "quantifier": "every DM size, influence function and target surface", "why_tests_cant": "all sizes and surfaces", "anchors": ["falco/dm.py:build_prefilter", "falco/dm.py:fit_surf_with_dm_lsq"]}
{"id": "C52", "title": "DM tilt uses a proper rotation", "statement": "The matrix gen_poke_cube applies to actuator positions is the product of the three axis rotations in the selected order, orthonormal with determinant 1, so projection never moves an actuator away from the axis.", "quantifier": "every triple of angles and both orders", "why_tests_cant": "all real angles", "anchors": ["falco/dm.py:gen_poke_cube"]}
{"id": "C53", "title": "Influence-function stamps stay inside the DM array", "statement": "For every actuator the postage stamp computed by gen_poke_cube starts at a whole pixel and lies strictly inside the padded DM array, both for the plain and the padded stamp size.", "quantifier": "every actuator grid, sampling, offset, stamp and padding size", "why_tests_cant": "arbitrary real geometry", "anchors": ["falco/dm.py:gen_poke_cube"]}
{"id": "C54", "title": "Stacked Jacobian columns line up with the control vector", "statement": "The per-mode matrix built for the controller contains the Jacobian blocks of the DMs in use so that column i belongs to the same actuator as entry i of the control vector; a DM in use with exactly one active actuator (or one dark-hole pixel) raises ValueError (np.squeeze).", "quantifier": "every set of DMs in use and every active list", "why_tests_cant": "all combinations of DM subsets and sizes", "anchors": ["falco/ctrl.py:wrapper"]}
{"id": "C55", "title": "Perfect estimate is the same serially and in parallel", "statement": "The perfect estimator picks the polarisation state documented for each list of states and refuses every other list; its field estimate is the weighted mean of the full-model field over the sub-band's wavelengths, the same serially and in every schedule; the stored images agree for one star (refuted for several: sum versus last), and the parallel branch fails on a non-square image (refuted).", "quantifier": "every list of polarisations, modes, wavelengths and every schedule", "why_tests_cant": "all schedules and mode lists", "anchors": ["falco/est.py:perfect", "falco/est.py:_est_perfect_Efield_with_Zernikes_in_parallel"]}
{"id": "C56", "title": "Normalisation table is complete and schedule independent", "statement": "calc_psf_norm_factor stores for every (sub-band, wavelength) the peak of its own unnormalised image, identically in every schedule of the pool; with wavelength-dependent HLC masks and two workers this is refuted.", "quantifier": "every grid size and schedule", "why_tests_cant": "schedules are unbounded", "anchors": ["falco/imaging.py:calc_psf_norm_factor", "falco/imaging.py:_model_full_norm_wrapper"]}
{"id": "C57", "title": "Pupil-focus-pupil round trip is one relay", "statement": "With matched sampling dx*dxi*N = wavelength*focal length, mft_f2p(mft_p2f(E)) equals relay(E, 1): same values, every sample at opposite coordinates (inter-pixel centring of any size, pixel centring of even sizes; refuted for odd sizes with pixel centring).", "quantifier": "every field, size, wavelength, focal length and matched sampling", "why_tests_cant": "continuous parameters and all sizes", "anchors": ["falco/prop.py:mft_p2f", "falco/prop.py:mft_f2p", "falco/prop.py:relay"]}
{"id": "C58", "title": "Dark-hole regions cover what was asked and scoring stays inside", "statement": "After falco_configure_dark_hole_region the correction (scoring) mask is exactly the union of the requested correction (scoring) zones in the stored coordinates; no corner of a correction zone is cut off; scoreInCorr has one entry per correction pixel, row by row, telling whether it is scored; a scoring zone nested in its correction zone gives scoring pixels that are correction pixels. Refuted with a vertical offset: scoring zones use the horizontal offset vertically, the configured value is overwritten, and a vertical offset alone raises.", "quantifier": "every number of zones, shapes, sides, radii, angles, offsets and samplings", "why_tests_cant": "real geometry, unbounded numbers of zones and pixels", "anchors": ["falco/setup.py:falco_configure_dark_hole_region", "falco/mask.py:falco_gen_SW_mask"]}
{"id": "C59", "title": "Optical models are linear in the input field", "statement": "For one instrument configuration, wavelength and set of flags, the output field of the full and of the compact model is a linear function of the input electric field: the model of a*E + b*F is a times the model of E plus b times the model of F. Whether the model raises, and with which exception, depends only on the shape of the input array; a configuration whose arrays fit together and whose coronagraph name is known never raises.", "quantifier": "all configurations, coronagraph types, mask and DM arrays, wavelengths, input fields and complex coefficients", "why_tests_cant": "a test can try a few fields on one coronagraph; superposition must hold for every pair of fields and every mask", "anchors": ["falco/model/models.py:full_Fourier", "falco/model/models.py:compact_general", "falco/prop.py:mft_p2v2p"]}
{"id": "C60", "title": "Normalisation only rescales the field", "statement": "Two runs of a model that differ only in the (positive) normalisation factor give fields that differ by the constant factor sqrt(n1)/sqrt(n2); factor zero gives the un-normalised field, except that with a vortex it also takes the mask out of the beam.", "quantifier": "all configurations, inputs and positive factors", "why_tests_cant": "the relation is between pairs of runs over all factors and configurations", "anchors": ["falco/model/models.py:full_Fourier", "falco/model/models.py:compact_general"]}
{"id": "C61", "title": "A transparent focal-plane mask is no mask", "statement": "In the compact model of a Lyot, apodized Lyot or hybrid Lyot coronagraph, a focal-plane mask whose transmission is the same everywhere (1 for the first two, any constant for the hybrid) gives exactly the field computed with the mask left out.", "quantifier": "all configurations, grids, wavelengths and input fields", "why_tests_cant": "Babinet's subtraction has to vanish for every array size, padding and centring", "anchors": ["falco/model/models.py:compact_general"]}
{"id": "C62", "title": "DM piston is a global phase", "statement": "Adding a constant p to the surface of a DM multiplies every pixel of the output field by the same unit phase exp(4 pi i p / wavelength) (and does nothing if that DM is not in use); image intensities do not change.", "quantifier": "all configurations, propagation distances, coronagraphs, pistons and input fields", "why_tests_cant": "holds through free-space propagation and every mask; tests compare a few intensities to rounding error", "anchors": ["falco/model/models.py:full_Fourier", "falco/model/models.py:compact_general"]}
{"id": "C63", "title": "Pupil-conjugate DMs act through the sum of their surfaces", "statement": "When both DMs are at the pupil (zero distances), the output depends on the two DM surfaces only through their sum; exchanging surface between the DMs changes nothing.", "quantifier": "all configurations, coronagraphs and pairs of surfaces with equal sum", "why_tests_cant": "quantifies over all splittings of a surface between two DMs", "anchors": ["falco/model/models.py:full_Fourier", "falco/model/models.py:compact_general"]}
{"id": "C64", "title": "Full and compact model agree on equal sampling", "statement": "Given the same sampling, masks and surfaces and an unscaled focal-plane mask, the full and the compact model return the same field, for every Lyot-type coronagraph and, with an odd relay number, for the vortex. With the mask scaled by wavelength this is false for Lyot coronagraphs in the full model. The name AVC, unknown names and the DM surface error flag make them behave differently.", "quantifier": "all configurations, coronagraphs, wavelengths, normalisation factors and input fields", "why_tests_cant": "the two code paths are separate copies; agreement must hold for all arrays, not for the demo configuration", "anchors": ["falco/model/models.py:full_Fourier", "falco/model/models.py:compact_general"]}
{"id": "C65", "title": "Reverse vortex propagation is the adjoint of the forward one", "statement": "For all square fields E and F, <F, V E> = <V' F, E> where V is the vortex propagation and V' the same function in reverse-gradient mode: the gradient that AD-EFC back-propagates through a vortex is exact.", "quantifier": "all square arrays of equal size, charges, beam radii and window parameters", "why_tests_cant": "an adjoint identity ranges over all pairs of fields; finite-difference tests see only some directions and rounding", "anchors": ["falco/prop.py:mft_p2v2p"]}
{"id": "C66", "title": "Sources superpose as positions and weights say", "statement": "In both model wrappers an off-axis source at (x, y) of a star at (xi, eta) gives the image of a star at (xi+x, eta+y); multiplying a star's weight by a multiplies the field by sqrt(a); a run with normalisation off (or a stored factor of zero) gives the unnormalised field of the source moved by the normalisation offset, not of the source asked for; the two wrappers agree for a star, and for any other Zernike mode the compact field is i times the full field; unknown layouts never return a field. The layout decides whether the focal-plane mask scales with wavelength: fpm_scale scales it in the full model for every coronagraph, but in the compact model only for the HLC.", "quantifier": "every instrument, star list, off-axis position, weight, Zernike mode, subband, wavelength and input field", "why_tests_cant": "quantifies over all instruments, fields and positions", "anchors": ["falco/model/models.py:full", "falco/model/models.py:compact"]}
{"id": "C67", "title": "Reverse-mode cost and gradient of the compact model", "statement": "For candidate DM surfaces the reverse-mode model (AD-EFC) returns as cost the mode-weighted sum over dark-hole pixels of |estimate + predicted change of the field|^2, and arrays g1, g2 of surface gradients. At the surfaces for which the fields were stored, the derivative of that cost along any pair of surface directions (d1, d2) is exactly the sum of g1*d1 + g2*d2, through every mask, relay and propagation. At any other candidate the arrays are the gradient of the energy with the image sensitivity frozen at the stored surfaces, which in general is not the gradient of the returned cost; and a stop in the DM2 plane makes the DM1 gradient wrong.", "quantifier": "every configuration (vortex with integer charge; FLC, SPLC, LC, APLC with equal samplings), wavelength, number of modes, estimate, mask, surface and direction of change", "why_tests_cant": "a derivative identity in all directions for all instruments; finite differences test a few directions to rounding error", "anchors": ["falco/model/models.py:compact_reverse_gradient", "falco/ctrl.py:_ad_efc"]}
{"id": "C68", "title": "Reverse pass of the differentiable DM is the transpose of rendering", "statement": "After any history of commands, for every pair of a rendered map S (command a) and an array g of its size, the sum of g*S equals the sum of a times the array that render_backprop(g) returns, for influence-function arrays with even sides, without rotation or resampling, for every shift; the map depends on the last command only. The reverse pass needs an earlier render. It is not the transpose for arrays with odd sides (fftshift in both directions) nor with resampling. Resampling gives zoom times the samples, rounded to nearest; a uniform surface stays uniform but its height is multiplied by zoom*sqrt(mn/MN), which is not 1 when rounding occurs.", "quantifier": "every influence function, actuator count, pitch, shift, command history, output size and g", "why_tests_cant": "a bilinear identity over all arrays and histories", "anchors": ["falco/diff_dm.py:DM.render", "falco/diff_dm.py:DM.render_backprop", "falco/diff_dm.py:DM.update"]}
{"id": "C69", "title": "The differentiable DM superposes influence functions on the actuators' positions", "statement": "For whole-sample shifts and no resampling the rendered surface is, pixel by pixel, the sum over all actuators of command times the influence function centred on the actuator's lattice position plus shift (periodic over the array; doubled for wavefront error). The wrapper places column k of a DM with an even number of actuators (k - xc) pitches from the centre up to less than one sample, exactly when the offset is a whole number of samples; a DM with an odd number comes out one and a half pitches low. A DM with unequal actuator counts rejects every command.", "quantifier": "every influence function, actuator count, pitch, whole-sample shift, centre, command and output size", "why_tests_cant": "tests compare one surface to tolerance", "anchors": ["falco/diff_dm.py:prepare_actuator_lattice", "falco/diff_dm.py:DM.render", "falco/diff_dm.py:dm_init_falco_wrapper"]}
{"id": "C70", "title": "Gradient of AD-EFC with respect to actuator commands", "statement": "For a vector u of changes of the controlled actuators the function that AD-EFC minimises returns as cost the predicted dark-hole energy plus utu*|u|^2. Its second result, in every direction of command space, is (1 + 2 utu) times the derivative of the energy with the image sensitivity frozen at the stored command (through height maps, dead actuators, the DM models and every mask); at u = 0 that is (1 + 2 utu) times the derivative of the returned cost. The penalty's own gradient 2 utu u is missing: regularisation only rescales the vector, so away from zero, or for utu > 0, it is not the gradient of the returned cost.", "quantifier": "every configuration of C67, every pair of DMs of C68 with live and dead actuators, voltages, gains, command vector and direction", "why_tests_cant": "a derivative identity in all directions for all instruments", "anchors": ["falco/model/models.py:compact_reverse_gradient", "falco/ctrl.py:_ad_efc", "falco/dm.py:gen_surf_from_act"]}
{"id": "C71", "title": "A column of the control Jacobian is the derivative of the compact model", "statement": "For a Lyot-type coronagraph (LC, APLC, HLC, FLC, SPLC), model.jacobian's column of a live actuator and mode is its weight times the derivative, at the current commands, of the compact model's field at the selected dark-hole pixels with respect to that actuator's voltage, in pixel order, although it propagates only a small box around the actuator with a partial matrix transform and adds the light outside the mask by a sub-array: exactly so for DMs in pupil planes, and for DMs elsewhere when the box is the whole array. Relay rotations, either centring, apodizers, pupil stops, FPM scaling with wavelength and the other DM's surface are included. A dead actuator has a zero column.", "quantifier": "every instrument with even array sizes whose box lies inside the DM array, every influence function, gain, weight, surfaces, input field, dark-hole mask and actuator", "why_tests_cant": "a derivative identity between two different propagation algorithms for all instruments; tests compare finite differences to tolerance", "anchors": ["falco/model/jacobians.py:precomp", "falco/model/jacobians.py:lyot", "falco/model/models.py:compact_general"]}
{"id": "C72", "title": "Tapered window of the vortex propagation", "statement": "gen_tukey_for_vortex with a window of Nw (at least 0.2) and taper a in (0,1] returns values in [0,1], even in the radius, exactly 0 from radius Nw/2 on, exactly 1 up to (1-a)Nw/2 less one table step, equal to the raised-cosine (Tukey) window at the table radii and within pi/(a(n-1)) of it in between, n = int(10 Nw).", "quantifier": "every window size, taper and radius", "why_tests_cant": "real radii and an unbounded table size", "anchors": ["falco/prop.py:gen_tukey_for_vortex", "falco/prop.py:mft_p2v2p"]}
{"id": "C73", "title": "Thin-film solver solves Maxwell's equations for the stack", "statement": "For any stack of passive layers (any number, thicknesses, complex indices, angle below the critical angle of the last medium, wavelength, polarization) solver returns the reflection amplitude of the unique field that satisfies the wave equation in every layer and the interface conditions; R is its squared modulus, T the ratio of transmitted to incident power, |tt|^2 = T, and tt is the transmitted amplitude up to one positive factor. R + T is at most 1, and exactly 1 when nothing absorbs. Splitting a layer in two or inserting a layer of zero thickness changes nothing; raising the reference height by g in the incident medium only turns phases. One interface gives Fresnel's formulas. Inconsistent lengths, negative angles and non-positive wavelengths are refused.", "quantifier": "every number of layers, index, thickness, angle, wavelength and polarization", "why_tests_cant": "a boundary-value problem over real parameters and an unbounded number of layers", "anchors": ["falco/thinfilm.py:solver"]}
{"id": "C74", "title": "Complex transmission of mask coatings", "statement": "calc_complex_trans_matrix returns one row per dielectric thickness and one column per metal thickness, each entry depending only on its own pair; no entry transmits and reflects more light than arrives, in either or the mean polarization; changing the reference plane multiplies all transmissions by one phase and all reflections by its square; titanium is laid only under metal; with no coating the substrate's Fresnel amplitudes come out. calc_complex_occulter gives at each pixel exactly the transmission of that pixel's thicknesses. Unknown materials, bad polarization flags and out-of-range scalars are refused; the name FUSEDSILICA, which the code means to accept, is refused too.", "quantifier": "every pair of thickness lists or maps, wavelength from 0.2 to 2 microns, angle below 90 degrees, reference height, polarization flag, convention and absorbing data table", "why_tests_cant": "real thicknesses, wavelengths and angles, and arrays of any size", "anchors": ["falco/thinfilm.py:calc_complex_trans_matrix", "falco/thinfilm.py:calc_complex_occulter"]}
{"id": "C75", "title": "Thin-film tables kept in files", "statement": "Whatever other calls and processes did to the files before and during a call, and wherever any of them was killed, gen_complex_trans_table either raises or returns tables that some request with the same file name computed. A call that finds no files computes both tables from its own request (the full one equals the compact one for one wavelength per subband; otherwise the slices behind the distinct wavelengths are zero), and later calls with the same name get the same tables. The name does not contain the reference height, nor the wavelength below one nanometre, nor the inner thicknesses, so such requests are served each other's tables; for a changed reference height the table is right up to one phase common to all thicknesses and wavelengths. A half-written file is never repaired: every later call with that name fails.", "quantifier": "every request, history of calls by any number of processes in any interleaving, and every moment of interruption", "why_tests_cant": "histories, interleavings and crash points are unbounded", "anchors": ["falco/thinfilm.py:gen_complex_trans_table"]}
{"id": "C76", "title": "Masks of a hybrid Lyot coronagraph looked up in tables", "statement": "gen_fpm_surf_from_cube returns the superposition of the actuators' influence functions at their positions, cut at zero, up to the tiny actuators it passes over. discretize_fpm_surf returns an index inside the table that points at the nearest tabulated thickness, within half a step, exact for tabulated heights. For the compact model every pixel of gen_fpm_from_LUT is the thin-film transmission, at the centre of the subband asked for, of such nearest thicknesses, and gen_fpm_cube_from_LUT holds the same masks. The full model is served the mask of the previous subband (cyclically), which for the first subband may be an opaque one; and once a Jacobian has been computed the compact model keeps the masks of that moment, whatever is done to the mask layers later.", "quantifier": "every number of actuators, influence functions, positions, voltages, evenly spaced tables, subband and wavelength index", "why_tests_cant": "arrays of any size over the reals, and histories of mask changes", "anchors": ["falco/hlc.py:gen_fpm_from_LUT", "falco/hlc.py:gen_fpm_cube_from_LUT", "falco/hlc.py:discretize_fpm_surf", "falco/hlc.py:gen_fpm_surf_from_cube", "falco/model/models.py:compact", "falco/model/models.py:jacobian"]}
{"id": "C77", "title": "Optional parameters: defaults fill gaps and never override the script", "statement": "Before a run the toolbox completes the parameter object. A value given by the script is never replaced, except for the attributes the toolbox owns (installation path, actuator counters, voltage increments, mas-to-lambda/D factor, stashed DM8/DM9 commands); a missing parameter gets its documented default, computed ones (neighbour limits, bias and flat maps, per-star and per-sub-band vectors, directories) from the final values of the parameters they depend on; nothing undocumented appears; completing twice equals completing once; every script that gives the required parameters with the right kinds is accepted, and one that lacks a required parameter is refused. With dm_ind given as a list the voltage increments are not initialised (refutation).", "quantifier": "every parameter store: any subset of attributes given, any values", "why_tests_cant": "There are over 140 guarded assignments whose order and interdependence matter; tests use a handful of complete scripts and never try the subsets of given parameters.", "anchors": ["falco/setup.py: set_optional_variables"]}
{"id": "C78", "title": "Columns of the vortex Jacobian are derivatives of the FFT vortex model", "statement": "For a vortex coronagraph, each column of the control Jacobian holds, at the pixels of the dark hole and multiplied by the DM weight, the derivative with respect to the actuator voltage of the final field of the compact model in which the vortex is propagated by two FFTs of a power-of-two size (at least the DM array and eight influence-function boxes). This is exact when the DMs are in pupil planes or the influence box is the whole array; the DM1 column uses the sampling of pupil P2 in the last transform and the DM2 column that of P4. A dead actuator has a zero column. The FFT propagation loses no energy whatever the charge and, with charge zero, only turns the pupil by 180 degrees.", "quantifier": "every instrument, wavelength, charge, influence function, actuator, DM command, input field and dark-hole mask that fit together, every array size", "why_tests_cant": "a derivative over all surfaces and voltages, for every array size, rotation and centring; tests compare a few columns with finite differences", "anchors": ["falco/model/jacobians.py: precomp, vortex", "falco/mask.py: falco_gen_vortex_mask", "falco/util.py: nextpow2, azimuthal_grid"]}
{"id": "C79", "title": "The pilot beam of PROPER is a Gaussian beam and its lenses are thin lenses", "statement": "prop_begin makes a unit plane wave whose diameter fills the given fraction of the grid, with the waist of the pilot beam there. For every wavefront a program can build with the bundled PROPER library, prop_lens changes the beam parameter q (distance from the waist plus i times the Rayleigh distance) to q' with 1/q' = 1/q - 1/f and keeps the beam radius, and prop_propagate adds the distance to q. Whatever the reference surfaces (plane or sphere) before and after, prop_lens multiplies the electric field by exp(-i pi r^2 / (lambda f)). prop_lens fails exactly when the focal length is zero, or when a wavefront brought to a plane with TO_PLANE outside the Rayleigh range of its waist meets a lens that puts it inside the new one; a program of four calls runs into the latter.", "quantifier": "every wavefront reachable by prop_begin, prop_lens, prop_propagate, prop_add_phase and prop_multiply, every even grid, wavelength and focal length", "why_tests_cant": "real parameters and unbounded histories of calls; the branches depend on where the beam is relative to its waist", "anchors": ["falco/proper/prop_begin.py", "falco/proper/prop_lens.py", "falco/proper/prop_propagate.py", "falco/proper/prop_add_phase.py"]}
{"id": "C80", "title": "PROPER propagations compose, reverse and obey Fresnel diffraction", "statement": "Propagating by d1 and then d2 gives the same wavefront (array, sampling, position, reference surface) as propagating by d1 + d2, whatever planes lie between and whether TO_PLANE was used, and going back restores the wavefront, provided no leg is a nonzero distance under 1e-12 m. From the beam waist to beyond the Rayleigh range, and from there back to the waist, the field is the Fresnel diffraction sum with sampling lambda |d| / (n dx); within the Rayleigh range each plane wave of spatial frequency f is multiplied by exp(-i pi lambda d f^2). With PHASE_OFFSET all are multiplied by exp(2 pi i d / lambda). Steps under 1e-12 m within the Rayleigh range are lost, however many.", "quantifier": "every reachable wavefront, distances, TO_PLANE and PHASE_OFFSET settings; every grid size (even for the diffraction sums)", "why_tests_cant": "equalities of whole arrays for all real distances, fields and sizes", "anchors": ["falco/proper/prop_propagate.py", "falco/proper/prop_ptp.py", "falco/proper/prop_wts.py", "falco/proper/prop_stw.py", "falco/proper/prop_qphase.py", "falco/proper/prop_select_propagator.py"]}
{"id": "C81", "title": "PROPER prescriptions neither lose nor create light", "statement": "After prop_define_entrance, the image prop_end returns adds up to one after any successful sequence of lenses, propagations, phase errors and multiplications by values of modulus one, and to at most one if the multiplications are by values of modulus at most one. prop_propagate keeps the total intensity of every wavefront.", "quantifier": "every sequence of calls of any length, every wavefront with light, every grid size", "why_tests_cant": "sequences are unbounded and the conservation holds for all fields, distances and focal lengths", "anchors": ["falco/proper/prop_define_entrance.py", "falco/proper/prop_end.py", "falco/proper/prop_multiply.py", "falco/proper/prop_propagate.py", "falco/proper/prop_lens.py"]}
{"id": "C82", "title": "Ellipse masks are antialiased coverage maps, when the edge window is wide enough", "statement": "falco_gen_ellipse returns values in [0, 1] and fails exactly for an unknown centering, fewer than two samples, or a zero radius or magnification. Without magnification, for circles (any clocking, any shift) and for ellipses along the axes, if the first pixel is at least 50.5 pixels from the centre along the shorter axis (a centred shape on 102 pixels or more is such a case), every pixel is exactly the fraction of its 101 x 101 samples that lie in the ellipse: no partly covered pixel is taken for full or empty. The half window that selects the edge pixels is measured at the first pixel only: for an ellipse turned by 45 degrees with an odd axis ratio k on (k^2+1)/2 pixels it is zero, and no pixel is antialiased. With magFac, edge samples are compared with the ellipse that is not magnified: once the magnification moves the edge by two pixels every value is 0 or 1.", "quantifier": "every beam sampling, array size, semi-axes, clocking, shift, centering and magnification, every pixel", "why_tests_cant": "real-valued geometry: the set of pixels selected for antialiasing depends on first differences at one corner, for all sizes and shapes; tests compare a few areas", "anchors": ["falco/mask.py: falco_gen_ellipse"]}
{"id": "C83", "title": "Noll's Zernike polynomials are numbered as documented and orthonormal", "statement": "The list of equations for numbers 1..maxz has one entry per number; entry j is Noll's polynomial of the degree and azimuthal order that Noll's numbering gives j, cosine at even numbers. Any two entries are orthonormal over the unit disc, no two numbers share a polynomial, and a map that sums distinct modes has mean square equal to the sum of the squares of its coefficients and mean equal to the piston coefficient. The text in which an equation is stored is complete for every number up to 276 and is cut at 277.", "quantifier": "all maxz, all pairs of numbers, all lists of distinct numbers up to 276 and coefficients, all points of the disc", "why_tests_cant": "orthonormality is an integral identity for infinitely many pairs of polynomials; a test samples a few modes on a pixel grid where it only holds approximately", "anchors": ["falco/proper/prop_noll_zernikes.py:prop_noll_zernikes", "falco/proper/prop_zernikes.py:prop_zernikes"]}
{"id": "C84", "title": "The obscured Zernike modes are orthonormal on the annulus", "statement": "For every central obscuration ratio from 0 up to but not including 1, the 22 obscured modes are orthonormal over the annulus between that radius and 1; without obscuration they are Noll's polynomials of the same numbers; a PROPER map of distinct obscured modes has mean square over the annulus equal to the sum of the squares of its coefficients.", "quantifier": "all obscuration ratios in [0, 1), all pairs of the 22 modes, all lists of distinct modes and coefficients", "why_tests_cant": "the ratio is a real parameter and the formulas are long hand-typed rational functions of it; a test can only try some ratios", "anchors": ["falco/proper/prop_zernikes.py:prop_zernikes", "falco/zern.py:propcustom_zernikes"]}
{"id": "C85", "title": "Zernike maps: pixel values, applied phase, and three documented uses that fail", "statement": "prop_zernikes returns the map whose pixel at polar position (r, t), in units of the radius, is the sum of the coefficients times the modes there, and multiplies the field by its amplitude or phase, or leaves the field alone with NO_APPLY. propcustom_zernikes does so too for a clear pupil, with pixel positions shifted by half a pixel for interpixel centring; but with an obscuration its map has only the last mode. A single number instead of an array, which the documentation allows, always raises. gen_norm_zern_maps returns one map per number, but on a circle of N^2/Nbeam pixels across instead of Nbeam, N being the width of the map.", "quantifier": "all wavefronts, number and coefficient lists, radii, ratios, options; all beam diameters of at least one pixel", "why_tests_cant": "the maps depend on real positions and coefficients and any number of modes; the failing uses are those no test in the suite exercises", "anchors": ["falco/proper/prop_zernikes.py:prop_zernikes", "falco/zern.py:propcustom_zernikes", "falco/zern.py:gen_norm_zern_maps"]}
{"id": "C86", "title": "Save-state system: what is saved, never restored and never deleted", "statement": "With state saving on, prop_state writes the wavefront of a wavelength not yet saved to one file, touches no other file, and marks the wavelength as saved. When the wavelength is already marked, the call always raises ValueError, leaves the global grid size 0 and changes no file: a wavefront is never resumed, and whatever prop_state returns is the wavefront it was given. Two wavelengths share a state file exactly when they agree to the femtometre after truncation, and the second then overwrites the first although both count as saved. After prop_init_savestate no later call deletes any .npz file, prop_end_savestate included; but prop_end_savestate before any prop_init_savestate deletes every file in the directory whose name has no leading dot. After prop_end_savestate, prop_state does nothing until the system is started again.", "quantifier": "all sequences of prop_init_savestate, prop_state, prop_end_savestate and other calls, all directories, wavelengths and wavefronts", "why_tests_cant": "the claims are about every history of calls and every directory content; the suite never calls the save-state functions", "anchors": ["falco/proper/prop_state.py:prop_state", "falco/proper/prop_savestate.py:prop_savestate", "falco/proper/prop_is_statesaved.py:prop_is_statesaved", "falco/proper/prop_init_savestate.py:prop_init_savestate", "falco/proper/prop_end_savestate.py:prop_end_savestate"]}
{"id": "C87", "title": "prop_run and prop_run_multi: broadband sums, pairing of inputs, independence of process order", "statement": "prop_run and prop_run_multi refuse every grid size that is neither 0 nor a power of two. For a prescription that returns a new array at each call, prop_run on a wavelength file of at least two rows returns the sum over the rows of throughput times the prescription's array at that wavelength, with the sampling of the last row, and on a single wavelength the prescription's array unchanged; a file of one row always raises TypeError. If the prescription returns one shared array, the sum is wrong: two rows give twice the product of both throughputs. prop_run_multi gives the same result, or the same error, in whatever order the processes end; result i is prop_run with wavelength i, or the only wavelength, and PASSVALUE i, or the only one, an empty dictionary being dropped; lists of two different lengths above one are always refused.", "quantifier": "all prescriptions, grid sizes, wavelength tables, PASSVALUE lists, process counts and completion orders", "why_tests_cant": "the claims range over arbitrary prescriptions, any number of wavelengths and every completion order of a process pool", "anchors": ["falco/proper/prop_run.py:prop_run", "falco/proper/prop_run_multi.py:prop_run_multi", "falco/proper/prop_execute_multi.py:prop_execute_multi"]}
{"id": "C88", "title": "Cubic-convolution interpolation: exactness, borders, threads", "statement": "Away from the borders the compiled cubic-convolution interpolator reproduces every picture that is a polynomial of degree at most two in each coordinate, and it returns each pixel at its own position from the third to the last but one; it is linear in the picture. At the borders it is not an interpolator: the first two columns and the last one are replaced by their neighbours, and a constant picture comes out too large just beyond the last column but one. In the threaded routine every output row is done by exactly one thread for any number of threads, and every schedule and every number of threads gives the same array. On a square grid of axes that array is the one of the plain routine; on scattered points or oblong grids it need not be, because the x kernels come from the first row only. A square picture in C order is read transposed.", "quantifier": "all pictures, sizes, coordinates, thread counts and schedules", "why_tests_cant": "exactness is over all real coordinates and images, and the threaded result must hold for every interleaving", "anchors": ["falco/proper/cubic_conv_c.c:cubic_conv_c", "falco/proper/cubic_conv_threaded_c.c:cubic_conv_c", "falco/proper/prop_cubic_conv.py:prop_cubic_conv"]}
{"id": "C89", "title": "DM surface: superposition of influence functions seen through the tilted mirror", "statement": "For a square command array and an influence function with a whole number of pixels per actuator, propcustom_dm succeeds; its map is zero outside a central window, and a pixel that sees a sample of the fine grid shows the sum over all actuators of height times sign times the influence function at its offset from that actuator. The point a pixel sees is the one that the documented left-handed turns, in XYZ or ZYX order, project onto that pixel. The surface is linear in the command. Command arrays whose two sides cover different numbers of pixels are always refused, as are both turn orders at once, both or neither of spacing and N_ACT_ACROSS_PUPIL, an unknown sign, and a fractional number of pixels per actuator.", "quantifier": "all command arrays, centres, spacings, tilts without right angles, influence functions, grids, and interpolators that are exact at the samples", "why_tests_cant": "holds for every command and geometry over real numbers; tests sample a few surfaces", "anchors": ["falco/dm.py:propcustom_dm"]}
{"id": "C90", "title": "Actuator positions agree between the DM surface and the poke cube", "statement": "The poke cube of gen_poke_cube turns actuator positions by the same rotation as the surface model gen_surf_from_act. For pixel-centred arrays, the place where the surface map shows an actuator is, for every tilt and both turn orders, exactly the place where the poke cube centres its influence function, both counted from index n/2. For arrays centred between pixels they differ: the surface map shows the actuator half a pixel earlier, as such an array requires, and the poke cube does not; and the half-pixel shift of the surface map turns with the mirror.", "quantifier": "all actuators, centres, spacings, pixel sizes, tilts without right angles and both orders", "why_tests_cant": "the Jacobian relies on agreement of two independent geometric computations for all parameters", "anchors": ["falco/dm.py:gen_poke_cube", "falco/dm.py:gen_surf_from_act", "falco/dm.py:propcustom_dm"]}
{"id": "C91", "title": "Throughput and off-axis image", "statement": "get_sim_offaxis_image_compact returns, at every pixel, the sum over stars and sub-bands of the piston weight times the compact model's intensity; asking for an offset is the same as moving every star by it; a scene with more stars than the compact model has never gives an image. calc_thput with metric 'hmi' (any case) is the light of the pixels at least half as bright as the brightest, and lies between the brightest pixel and all the light; with 'ee' or 'e.e.' it is the light within thput_radius of the optical axis (not of the source: a source outside that radius can have throughput 0), never falls as the radius grows and reaches all the light; other names fail. Sub-bands enter with weight mean(I00)/I00: equal normalisation factors cancel, unequal ones do not.", "quantifier": "every compact model, number of stars and sub-bands, weights, image, offset, radius, metric name and list of normalisation factors", "why_tests_cant": "the sums, the maximum and the cancellation must hold for all images and factors; a test uses one configuration with one metric", "anchors": ["falco/imaging.py:get_sim_offaxis_image_compact", "falco/imaging.py:calc_thput", "falco/model/models.py:compact"]}
{"id": "C92", "title": "Image noise for every outcome of the draws", "statement": "For every outcome of the random draws add_noise_to_subband_image returns an image of the same shape whose pixels, times peak counts and number of exposures, are whole numbers, and which differs from the input plus averaged shot error, dark current and read noise (in electrons, over gain times peak counts) by at most half a count. The mean dark current is not taken off: a pixel that collects it comes out brighter by it. A pixel that collects less than half a count in each exposure comes out 0, however many exposures are stacked. Without read noise no pixel is negative. Negative pixels, negative or missing sub-bands are refused; with no exposures the result is the number 0 for every image.", "quantifier": "every detector setting, image, sub-band, number of exposures and every outcome of the random draws", "why_tests_cant": "a statistical test samples a few draws; rounding, bias and the faint limit are claims about all of them", "anchors": ["falco/imaging.py:add_noise_to_subband_image"]}
{"id": "C93", "title": "AD-EFC voltage-penalty scale is the largest influence of the chosen actuators and leaves the DMs as they were", "statement": "set_utu_scale_fac sets the scale of the voltage penalty to the maximum, over the actuators selected by the two masks on the DMs in use, of the mode-weighted summed squared response of that actuator in the dark hole, and on return both DMs have the actuator lists they had before; selecting more actuators can only raise the scale. If the call fails part-way (parallel Jacobian with a mask that is not a leading block, a mask selecting one actuator, a mask of the wrong length, half of a tied pair) the DMs are left restricted to the masked actuators.", "quantifier": "all masks, numbers of modes, pixels and actuators, weights, optical responses, DM subsets and worker completion orders", "why_tests_cant": "the masks are subsets of thousands of actuators and the failure paths depend on the order in which attributes are swapped; a test uses one mask and one success path", "anchors": ["falco/ctrl.py:set_utu_scale_fac", "falco/model/models.py:jacobian"]}
{"id": "C94", "title": "Rotation and projection of the differentiable DM", "statement": "make_rotation_matrix returns the rotation by the given angles about z, y and x in the requested order (missing angles are zero, more than three raise ValueError); the differentiable DM looks every pixel of its surface up at the point obtained by rotating about the array centre n/2 and dropping the height, so that an integral look-up returns the sample itself, an edge-on tilt raises an error, and with the angles the wrapper passes the map is the one PROPER's prop_dm uses. The gradient of a DM turned by a quarter turn is the transpose of the rendering. Not so in general: the gradient of a tilted DM is not the transpose of its rendering, the clocking angle is counted as obliquity of the reflection, a half turn of an array of odd size moves its centre pixel, and two angles are rejected.", "quantifier": "all angles, orders, array sizes, influence functions, command histories, gradients and interpolation schemes that are exact at grid points and zero outside", "why_tests_cant": "the projection depends continuously on three angles and acts on every pixel; a test compares a few renderings and one finite-difference gradient at zero tilt", "anchors": ["falco/diff_dm.py:make_rotation_matrix", "falco/diff_dm.py:apply_homography", "falco/diff_dm.py:prepare_fwd_reverse_projection_coordinates", "falco/diff_dm.py:warp", "falco/diff_dm.py:DM.render", "falco/diff_dm.py:DM.render_backprop", "falco/diff_dm.py:dm_init_falco_wrapper"]}
{"id": "C95", "title": "Zernike sensitivities are mean squared field changes and leave the configuration as it was", "statement": "calc_zern_sens returns one row per Zernike mode and one column per annulus; each entry is the mean, over the pixels of the scoring mask between the two radii, of the squared modulus of the change of the full model's field, averaged over polarisations and unique wavelengths, when ZrmsVal metres of that mode are added to the entrance field of that wavelength (or, for a PROPER model, to its list of Zernike coefficients) and to nothing else. Entries are never negative, are 0 for a zero amplitude and nan for an empty annulus; worker processes give the same matrix as the serial loop and leave mp untouched; afterwards the entrance field and the Zernike list are as before and a second call returns the same matrix. Not so: one Zernike mode raises an error, a dark hole of several zones raises an error, a full model that fails leaves the aberration in mp, and for a PROPER model that reads mp.full.zval the last mode of the first call stays in place, so that a second call reports sensitivity 0 for it.", "quantifier": "all full models, numbers of modes, annuli, wavelengths and polarisations, amplitudes, Zernike maps, entrance fields, worker counts and prior Zernike lists", "why_tests_cant": "the matrix is assembled from hundreds of model runs that mutate shared state; a test compares serial and parallel results of one configuration and never calls the function twice on a PROPER model", "anchors": ["falco/zern.py:calc_zern_sens", "falco/zern.py:falco_get_single_sim_Efield_LamPol", "falco/zern.py:falco_get_single_sim_Efield_LamPolZern", "falco/mask.py:falco_gen_SW_mask"]}
{"id": "C96", "title": "The Jacobian for minimising normalised intensity is the derivative of the normalised field", "statement": "With mp.jac.minimizeNI set, a Jacobian column of a Lyot-type coronagraph is, at every dark-hole pixel, the derivative with respect to one volt on the actuator of the coronagraphic field divided by the brightest pixel of the image without the focal-plane mask, times the DM's weight, whenever that pixel is alone in being brightest, lies on the axis, and the box propagation is exact (DMs in pupil planes or a box as large as the array). The scalar it subtracts is the derivative of the on-axis field without the mask. The controller divides the estimate by the same peak, so an exact estimate becomes the normalised field. Not so: for an HLC whose mask has a transmission other than 1 at its corner the peak's derivative lacks that factor; with inter-pixel centring and an odd number of rotations the Lyot stop is rotated about the wrong point; a Lyot stop sampled otherwise than the pupil raises ValueError unless it is also supplied at the pupil's sampling.", "quantifier": "all instruments of Lyot type with a star on the axis, DM surfaces, influence functions, actuators on DM1 and DM2, masks, apodizers, numbers of rotations, wavelengths and input fields", "why_tests_cant": "the quotient rule couples two different propagation codes (a box through the coronagraph and a sum over the pupil); a test compares a few actuators with finite differences to a percent and never uses an HLC or inter-pixel centring", "anchors": ["falco/model/jacobians.py:no_fpm", "falco/model/jacobians.py:precomp", "falco/model/jacobians.py:lyot", "falco/ctrl.py:wrapper", "falco/model/models.py:compact_general"]}
{"id": "C97", "title": "The surface of a DM depends on its command and arguments, not on earlier calls", "statement": "gen_surf_from_act called on a DM with the differentiable model returns, after any sequence of commands and calls, the surface that a DM never used before returns for the same command; but at the pixel width of its first call: the pixel width, position, tilts, clocking, spacing, sign and influence function passed or set later are ignored, so that a surface asked for at another pixel width is magnified by the ratio of the two (each height appears at the pixel distance of the first call's scale). The inter-pixel centring is never honoured. Without the differentiable model the object remembers the command and its constraints only. Asking again for the same command gives the same surface. The gradient with respect to the voltages that AD-EFC computes is the exact derivative of the (linear) surface when the DM's orientation is rot0; with each of the seven other orientations it is the derivative for another actuator, and a two by two DM shows the wrong value.", "quantifier": "all DM configurations (sizes, VtoH maps, orientations, dead, tied and pinned actuators, influence functions, positions), all sequences of commands, pixel widths and array sizes, all interpolation routines of the tilted case, all gradients of the surface", "why_tests_cant": "what an earlier call leaves in the object shows only in a later call with other arguments; tests build a new DM for each case, use one pixel width, and check gradients for the default orientation", "anchors": ["falco/dm.py:gen_surf_from_act", "falco/dm.py:enforce_constraints", "falco/diff_dm.py:dm_init_falco_wrapper", "falco/diff_dm.py:DM", "falco/model/models.py:compact_reverse_gradient"]}
{"id": "C98", "title": "PROPER error maps are placed and scaled as documented", "statement": "prop_errormap multiplies every pixel of a wavefront on a grid of even size by exp(2 pi i/lambda * path), path being the number of the map at the same distance from the map's centre, times -2 for mirror surfaces, times the unit and MULTIPLY, for maps with the wavefront's sampling (SAMPLING, PIXSIZE, or RADPIX with the pilot beam's radius, in the documented order), away from the map's border; maps that are quadratic in x and y are exact at every sampling; a map that prop_writemap wrote is read with the scale it was written with; ROTATEMAP by quarter turns moves each number counter-clockwise about the centre. Not as documented: a shift in x moves the map in x and y alike and a shift in y does nothing; a map with unequal numbers of rows and columns is centred with the two exchanged; grids of odd size get the map one pixel off; the outermost pixels of a map are replaced by their neighbours; amplitude maps always raise; one of XC_MAP and YC_MAP alone raises NameError, or is dropped if SAMPLING is given; prop_rotate raises NameError with a centre or a shift; at angles other than quarter turns the threaded library gives a wrong ramp.", "quantifier": "all wavefronts, maps, samplings, centres, shifts, units, kinds of maps, all interpolation routines exact at pixels, all numbers of threads and schedules", "why_tests_cant": "the errors depend on parities, on the shape of the map and on combinations of keywords; tests use square maps without shifts", "anchors": ["falco/proper/prop_errormap.py:prop_errormap", "falco/proper/prop_readmap.py:prop_readmap", "falco/proper/prop_resamplemap.py:prop_resamplemap", "falco/proper/prop_writemap.py:prop_writemap", "falco/proper/prop_rotate.py:prop_rotate"]}
{"id": "C99", "title": "PROPER's magnification reads the image with Lanczos' kernel about the centre", "statement": "prop_magnify gives at every output pixel whose place in the image is at least 7 pixels from a border the sum over the whole image weighted by the damped sinc of half width 6, divided as CONSERVE and AMP_CONSERVE say, for every magnification and size, with and without the compiled library, for real and complex images; places that are pixels with 6 pixels on every side come out exactly; places nearer than 5 pixels to a border are zero; it is linear; without a size the output has the whole part of n mag pixels; QUICK is exact at pixels. Not as documented: a complex image magnified by the library keeps what memory held in the border; the library and Python differ for places between; magnification 1 is not the identity and CONSERVE does not keep the total; a uniform image does not come out uniform; a magnification to less than one pixel fails in Python only; prop_pixellate never uses its n_out and for odd sizes its pixel is too wide by n / (n - 1).", "quantifier": "all images, sizes, magnifications, keywords, output pixels, contents of memory, interpolation routines exact at pixels", "why_tests_cant": "depends on rounding at each output pixel, on the parity of sizes and on uninitialised memory; tests compare a few values", "anchors": ["falco/proper/prop_magnify.py:prop_magnify", "falco/proper/prop_szoom.py:prop_szoom", "falco/proper/prop_szoom_c.c:prop_szoom_c", "falco/proper/prop_pixellate.py:prop_pixellate"]}
{"id": "C100", "title": "PROPER's PSD error maps have the documented RMS, spectrum and mean", "statement": "prop_psd_errormap without FILE gives a map whose RMS about its mean is, whatever the random numbers, the one of the documented density summed over the grid (the third argument with RMS or AMPLITUDE); on even grids without MAX_FREQUENCY every Fourier coefficient of the map it returns is a fixed multiple of the root of the density times the real part of the random phases, the mean is zero, and no frequency above MAX_FREQUENCY is present; AMPLITUDE is exactly the largest value; the map returned is the one applied to the wavefront, as phase or factor, and NO_APPLY changes nothing; a map written to FILE and read back is the same two pixels inside the border. Not as documented: ROTATION uses an already rotated coordinate, so a quarter turn makes the density depend on the row only and a rotation changes the RMS; MAX_FREQUENCY multiplies the density by the frequency even below the limit; MIRROR has the opposite sign from prop_errormap's mirror maps; on odd grids the mean is not zero.", "quantifier": "all grids, samplings, amplitudes, correlation lengths, exponents, keywords, random numbers, interpolation routines exact at pixels", "why_tests_cant": "the map is random: its statistics hold for every draw only by algebra on the transform; tests fix a seed and compare values", "anchors": ["falco/proper/prop_psd_errormap.py:prop_psd_errormap"]}
{"id": "C101", "title": "PROPER's ellipses and the annular masks made of them are antialiased coverage maps", "statement": "prop_ellipse gives at every pixel the fraction of its samples that are in the ellipse, for every size, place and rotation of an ellipse that meets the array, and DARK its complement; apertures and obscurations multiply the field by the fraction and by its complement on even grids, and together give the field back; FALCO's annular focal-plane mask is that of its outer circle times 1 outside and the given amplitude inside the inner circle, in the smallest even array that contains it for every offset; the DM stop is the coverage by its disc. Not as documented: an ellipse beyond the edge of the array is an IndexError and not an empty image, and zero radii raise; on odd grids apertures are one pixel off; a pixel-centred DM stop can be half a pixel too small and cut its edge; the DM stop's samples depend on whether an annular mask was generated before.", "quantifier": "all sizes, samplings, radii, centres, rotations, odd numbers of samples, keywords, offsets, centrings, wavefronts", "why_tests_cant": "the window of pixels treated as edges and the bounding box have to be wide enough for every size and rotation; tests compare a few areas", "anchors": ["falco/proper/prop_ellipse.py:prop_ellipse", "falco/proper/prop_elliptical_aperture.py:prop_elliptical_aperture", "falco/proper/prop_circular_aperture.py:prop_circular_aperture", "falco/proper/prop_circular_obscuration.py:prop_circular_obscuration", "falco/mask.py:gen_annular_fpm", "falco/mask.py:falco_gen_DM_stop"]}
{"id": "C102", "title": "PROPER's rectangles are painted line by line to the exact length of their sections", "statement": "prop_rectangle gives at every pixel the mean over equally spaced lines across its row of the exact length of the rectangle's section over the pixel, for every place (also partly or wholly outside of the array), size, rotation and number of lines, without an exception; the value is between 0 and 1, 1 inside and 0 outside, and DARK is the complement; rectangular apertures and obscurations multiply the centred field of an even grid by the value and by its complement; prop_irregular_polygon with the rectangle's corners in either order paints the same in all columns but the last. Not as documented: ROTATION turns rectangles and ellipses in opposite directions; half-covered pixels beside and above a centred square get different values; prop_irregular_polygon leaves the last column of the array empty under a polygon that reaches over it, and raises an IndexError for one to the right of the array.", "quantifier": "all sizes, samplings, widths, centres, rotations, numbers of lines, keywords, wavefronts", "why_tests_cant": "the two chains of vertices advance at most once per line, and clipping and rounding depend on place and rotation; tests paint a few rectangles", "anchors": ["falco/proper/prop_rectangle.py:prop_rectangle", "falco/proper/prop_rectangular_aperture.py:prop_rectangular_aperture", "falco/proper/prop_rectangular_obscuration.py:prop_rectangular_obscuration", "falco/proper/prop_irregular_polygon.py:prop_irregular_polygon"]}
{"id": "C103", "title": "Pupils with a central obscuration and struts have the shape asked for", "statement": "falco_gen_pupil_Simple gives at every pixel, for every array size, centering, clocking and shear that its ellipses are framed by, the fraction of its 101 x 101 samples in the outer ellipse, times that out of the inner one, times what every strut leaves of it, a strut being painted to the exact length of its sections; 1 where all is clear, 0 outside, in the central obscuration or in a strut, between 0 and 1 elsewhere, whatever the order of the struts; the clocking turns ellipses and struts together about the shifted centre, and struts reach across pupils of diameters up to 1.2; bad widths, diameters and centerings raise. With flagHG the value is the product of hyper-gaussians of the radii and of the spiders, within explicit powers of 1 inside and of 0 outside. Not as documented: struts stop 0.6 diameters from the centre in wider pupils; on arrays of an odd size they are half a pixel away from where the ellipses' centre is; a strut of the default width 0 along the rows dims its row by 1/101; flagHG ignores the clocking and the shears.", "quantifier": "all beam widths, array sizes, diameters, stretches, strut widths and lists of angles, clockings, shears, centerings", "why_tests_cant": "the mask combines two conventions for the centre, two antialiasing schemes and a list of struts; tests compare a few pupils with stored areas", "anchors": ["falco/mask.py:falco_gen_pupil_Simple", "falco/mask.py:falco_gen_ellipse", "falco/proper/prop_rectangular_obscuration.py:prop_rectangular_obscuration", "falco/util.py:radial_grid", "falco/util.py:azimuthal_grid"]}
{"id": "C104", "title": "Convex polygons are painted to the exact length of their sections", "statement": "prop_irregular_polygon gives at every pixel (but those of a last column that the polygon reaches beyond) the mean, over the antialiasing lines across its row, of the length over the pixel of the line's section of the convex hull of the vertices, whatever the number of vertices, their order, the first one and the place of the polygon, when on each side each vertex after the first is higher than the one before it by a line at least; 1 on pixels wholly inside, 0 on those wholly outside, between 0 and 1 elsewhere; DARK gives the complement; two lists of vertices of the same hull give the same pixels, closed or not; fewer than three vertices raise. Not as documented: anticlockwise vertices of which the first three are in line are not recognised, and nothing inside the polygon is painted.", "quantifier": "all wavefronts, antialiasing factors, convex polygons of any number of vertices in either order, norm and dark switches", "why_tests_cant": "the scan keeps two chains of vertices from line to line and advances each by one vertex at most; tests draw a few polygons of fixed sizes", "anchors": ["falco/proper/prop_irregular_polygon.py:prop_irregular_polygon", "falco/mask.py:gen_bowtie_fpm"]}
{"id": "C105", "title": "PROPER's eighth-order occulter is eighth-order, spans its transmissions, and is applied as returned", "statement": "prop_8th_order_mask returns, at every pixel of a linear, circular or elliptical mask, the root of the minimum transmission plus the range of transmissions times the ideal intensity there, rescaled from the smallest to the largest on the grid; all pixels are between the roots of the two transmissions and both are reached; on even grids the transmission is the smallest at the middle column, row or pixel and nowhere else, grows from there by at most 1000 times the eighth power of the distance in half widths when the grid reaches one half width, and the mask multiplies the wavefront as it is returned; METERS only changes the unit, Y_AXIS transposes, CIRCULAR masks are symmetric. Not as documented: the transmission at the half width depends on where the grid ends (1 there on a grid of two pixels), and on odd grids the mask is centred half a pixel beyond the central pixel.", "quantifier": "all wavefronts, half widths, transmissions, shapes, units", "why_tests_cant": "an order of contact at the centre and a property of every pixel of every grid; tests evaluate single masks", "anchors": ["falco/proper/prop_8th_order_mask.py:prop_8th_order_mask", "falco/proper/prop_sinc.py:prop_sinc"]}
{"id": "C106", "title": "PROPER's reading, multiplying, dividing and adding of wavefronts", "statement": "On even grids prop_multiply, prop_divide and prop_add_wavefront with an array multiply, divide and add pixel by pixel with the array's centre at the middle of the wavefront, and with a number everywhere, changing nothing else of the wavefront; dividing undoes multiplying and the other way round for everything without zeros; prop_get_amplitude and prop_get_phase are the polar form of prop_get_wavefront; what prop_get_wavefront gives can be added to another wavefront; prop_get_sampling_radians and _arcsec are the sampling over the focal length in the two units; prop_radius with NORM is 1 where the radius is that of the beam; propagating by prop_get_distancetofocus ends at the waist, where the beam radius is the waist's. Not as documented: on odd grids the wavefront added is displaced by one row and one column, and complex scalars are refused by prop_multiply and prop_divide.", "quantifier": "all wavefronts, grid sizes, arrays, numbers", "why_tests_cant": "statements about every pixel of every array and every state of the beam; tests check a few", "anchors": ["falco/proper/prop_multiply.py:prop_multiply", "falco/proper/prop_divide.py:prop_divide", "falco/proper/prop_add_wavefront.py:prop_add_wavefront", "falco/proper/prop_get_amplitude.py:prop_get_amplitude", "falco/proper/prop_get_phase.py:prop_get_phase", "falco/proper/prop_get_distancetofocus.py:prop_get_distancetofocus", "falco/proper/prop_radius.py:prop_radius"]}
{"id": "C107", "title": "PROPER's regular polygons", "statement": "On even grids prop_polygon gives exactly the image prop_irregular_polygon gives for the corners it documents \u2014 on a circle about the centre, the first in the direction of ROTATION, clockwise \u2014, unless the highest corner rounds to the row above the grid; so, where the polygon meets the grid and stays below its top row, every pixel is the mean over the subsampling rows of the length of the row's section inside the polygon (one minus it with DARK). Not as documented: on odd grids the polygon is displaced by half a pixel to the right and upwards; no vertices raise ValueError, a sampling of zero ZeroDivisionError.", "quantifier": "all grid sizes, samplings, numbers of corners, radii, centres, rotations, subsampling factors", "why_tests_cant": "a statement about every pixel of every polygon; tests check a few images", "anchors": ["falco/proper/prop_polygon.py:prop_polygon", "falco/proper/prop_irregular_polygon.py:prop_irregular_polygon"]}
{"id": "C108", "title": "PROPER's fit of actuator commands", "statement": "prop_fit_dm ends for every surface and every kernel, after at most a number of corrections that depends on neither. The command it returns is one of the sequence that starts with the surface itself and adds the difference left each time; all corrections before it took more than 1 % away, and it stopped because everything is within 1e-15, because the last correction took 1 % or less away, because the next one made it worse, or, before the first, because the misfit of the surface itself is not 1 % below 1e6. The command is never worse than the surface itself as command, unless everything is within 1e-15. Where applying the kernel misses every image d by at most 100/102 of the norm of d and the misfit at the start is 1 % below 1e6, the surface returned is that of the command and within 1e-15 of the surface wanted; with a kernel of one unit element at its origin the command is the surface. Not as documented: where it stops because the next correction is worse, the surface returned is that of the worse command, not of the command returned.", "quantifier": "all surfaces, kernels, array sizes", "why_tests_cant": "termination and a statement about the whole iteration; tests run it on a few surfaces", "anchors": ["falco/proper/prop_fit_dm.py:prop_fit_dm"]}
