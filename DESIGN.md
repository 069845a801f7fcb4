# Formal model of pyroomacoustics: design

## 1. Approach

* The source in `/repo` (Python + C++) was read as text and re-expressed by hand as
  shallow Gallina functions, one Coq definition per function or loop body, each with
  a comment citing file and lines.  Nothing is extracted or generated.
* Discrete logic (indices, loops, buffers, histories, schedules) is modelled over
  `nat`/`Z`/`list`, executable and axiom free.  Samples that are only moved around
  are an abstract type.
* Geometry, energies and signal values are modelled over Coq's real numbers `R`
  (exact arithmetic).  Floating point rounding, overflow and NaN are **not**
  modelled unless a file says so explicitly (a division by zero that numpy turns into
  NaN is `None` in the filters, windows and utilities; the 16 bit conversions round to
  single precision with Flocq).
* Exceptions are values (`option`).
* Objects with mutable state are records with a step function; history properties are
  proved by induction over the list of calls.
* Threads are modelled by an interleaving step relation; properties hold for every
  schedule.
* External numerical routines (SVD, linear solvers, pseudo-inverse, kd-tree, argsort,
  random numbers, uninitialised memory) are universally quantified arguments.  What is
  needed from them is an explicit hypothesis of the theorem.  The FFT is the defining
  sum over complex numbers (DftModel.v), whose inversion is proved.
* When the unchanged code violates a property, its wording is restricted to the cases
  in which it holds and the violation is a theorem with suffix `_refuted` (section 5).
  There is no theorem with suffix `_partial` at present.

## 2. Files

For a topic `X`:

* `XModel.v`  – the model (definitions only, with citations);
* `XSpec.v`   – small independent specification (when not stated in the theorem);
* `XProofs.v` – lemmas;
* `XProps.v`  – the property theorems, concrete cases meeting their hypotheses, and
  `Print Assumptions`.

Shared: `Base.v`, `BaseProofs.v` (loops, stores, option), `Vec.v` (vectors as lists),
`Sum.v` (indexed sums), `Cpx.v` (complex numbers), `DftModel.v`/`DftProofs.v` (what
numpy.fft computes), `Integral.v` (integrals over the sphere).

## 3. Trusted base

* Coq 8.16.1 kernel (with its `vm_compute` reduction where used in examples).
* Axioms of Coq's standard library only, listed per theorem in section 6:
  `ClassicalDedekindReals.sig_forall_dec`, `ClassicalDedekindReals.sig_not_dec`,
  `FunctionalExtensionality.functional_extensionality_dep` (all three come with the
  standard library's real numbers) and `Classical_Prop.classic` (used by its lemmas on
  trigonometry and analysis).
* The definition of the integral in the library Coquelicot, used in the statement of `C137_total` only; the library
  adds no axioms.
* The hand translation from Python/C++ into Gallina, as cited in each definition.
* No axioms of our own, nothing admitted, no plugins, no kernel check switched off.

## 4. What is modelled and what is not

| source | modelled in | not modelled |
|--------|-------------|--------------|
| libroom_src/geometry.cpp | Geometry: everything | rounding |
| libroom_src/wall.cpp, wall.hpp | Wall: constructors, intersection, intersects, side, reflect, normal_reflect, area, mirror/scatter | the SVD (argument), names |
| libroom_src/room.cpp 33–126 | Ray/Ism: constructors, `get_max_distance`, `next_wall_hit` | `find_normal` variants |
| room.cpp 184–381 | Ism: `image_source_model`, `image_sources_dfs`, `is_visible_dfs`, `is_obstructed_dfs`, `fill_sources` | negative orders |
| room.cpp 386–471 and the count functions | Shoebox | int overflow |
| room.cpp 507–936 | Ray: `scat_ray`, `simul_ray`, `ray_tracing` loops | random engine (argument) |
| common.hpp, microphone.hpp | Histogram | kd-tree (argument) |
| rir_builder.cpp | Rir, Par: the three routines, all task interleavings | array type dispatch, int overflow |
| threadpool.hpp | Pool: a transition system with every interleaving | `std::future` internals |
| simulation/ism.py | Rir: sizing, delays, fractional parts; IsmDir: multi_convolve, directivities, full-band construction | interpolate_octave_bands |
| simulation/rt.py | Rt: everything | filter bank, random draws (arguments) |
| room.py | Room (configuration, caches, call order), PolyRoom (`from_corners`, `extrude`, volume, shoebox overrides), Simulate (`simulate`), Inside (`get_bbox`, `is_inside`), Theory (`rt60_theory`), Anecho (`image_source_model`, AnechoicRoom, `direct_snr`), Convex (`find_non_convex_walls`), RtOpt (options of the ray tracer), Air (`set_air_absorption`), Names (`get_wall_by_name`), RtRoom (sources, microphones, `ray_tracing`, the sum in `compute_rir`) | plotting, `wav` output |
| soundsource.py | Source: everything | slices with a step, single precision |
| transform/dft.py, stft.py | Stft: one channel, streaming and one-shot; StftMulti: several channels | fftw/mkl back ends |
| adaptive/* | Buffer, Lms, Rls, Toep, SubLms | mkl_fft variants |
| acoustics.py | Reverb (mel scale, rt60 formulas), Bands (cosine and Antoni banks), Param (resampling), Minphase (minimum phase filters), Synth (synthesis, minimum phase bands) | `mfcc`, `bandpass_filterbank` (scipy) |
| parameters.py | Param: constants, air, materials; Threads: `get_num_threads` | the contents of the material data base beyond shape |
| utilities.py | Util: conversions, `convmtx`, fractional delays, `levinson`, `autocorr`, `lpc`, `goertzel`; Noisy: `rms`, `normalize_pwr`, `dB`, `create_noisy_signal` | plotting helpers, `highpass`, `resample` |
| windows.py | Window: every window | decimal constants are exact rationals |
| sync.py | Sync | |
| doa/utils.py, grid.py, detect_peaks.py, doa.py, srp.py, music.py, normmusic.py, cssm.py, waves.py, tops.py, frida.py, tools_fri_doa_plane.py | Sphere, Grid, Mode, Doa, Cssm, Tops, Frida, FridaImg, FridaAmp, FridaRaw | FRIDA: azimuths from raw signals, unused reconstruction routines; plots |
| beamforming.py | Array (geometries, container), Beam (steering, designs, conversions, processing) | plots, `far_field_weights` for linear arrays beyond the model, time domain rake filters that always raise |
| directivities/* | Direct: rotations, analytic patterns; Harm, Interp, Area, Regrid, Measured, Hist, Sofa | plots, python-sofa, downloads |
| random/* | Random, Density | numpy's generators (arguments) |
| datasets/base.py | Dataset | corpora, downloads |
| experimental/point_cloud.py | `PointCloud` | plot, sharing of arrays, svd and eig (arguments) |
| experimental/localization.py | everything | eigh (argument), lstsq (relation) |
| experimental/deconvolution.py | Loc, Deconv: all | rounding |
| experimental/signals.py | Sweep: all | rounding |
| experimental/rt60.py | Measure: everything but the plot | `lstsq` and `curve_fit` (arguments) |
| bss/common.py | Back: all of projection_back; Sparse: sparir | sparir with an array of initial values or of weights (both raise) |
| bss/auxiva.py | Auxiva: all; AuxEig: `init_eig` | callbacks |
| bss/ilrma.py | Ilrma: all | callbacks; divisions by zero are failures |
| bss/trinicon.py | Trini: all | fftconvolve as convolution; divisions by zero excluded by a positive delta_max |
| bss/sparseauxiva.py | Sparse: all | callbacks; divisions by zero are failures |
| bss/fastmnmf.py, bss/fastmnmf2.py | Fmnmf: all | callbacks, GPU path; the intervals between diagonaliser updates and normalisations at their defaults; divisions by zero are failures |
| denoise/spectral_subtraction.py, denoise/iterative_wiener.py | Denoise: all | a noise spectrum given as an array to the static helpers; NaN and infinity are failures |
| denoise/subspace.py | Subspace: all | complex eigenvalues (eig returning None stands for them); lstsq, eig, argsort, pinv are oracles |
| recognition.py | `HMM` (chain, forward, backward, fit, generate, loglikelihood), `CircularGaussianEmission`; Gauss: `GaussianEmission` | random initial `CircularGaussianEmission`, rounding, scipy's singularity threshold |
| phase/gl.py | `griffin_lim` | other `stft_kwargs`, callbacks with effects, broadcasting of `ini`, rounding |
| metrics.py | Med (`median`), Echo (`mse`, `snr`, `sweeping_echo_measure`) | `itakura_saito`, `pesq` |
| multirate.py | Putnam: `frac_delay` | `low_pass` (scipy's remez), `resample` (always raises) |
| rest of bss, rest of experimental | see MANIFEST for what is covered | everything else |

How the proofs go, per property:

| id | what is modelled | proof |
|----|------------------|-------|
| C01–C06 | the triple loop of `image_source_shoebox`, the count functions, the position, attenuation, direction formulas (C truncating division = `Z.quot`) | loop = filter of lattice; closed forms by induction on the order; per-axis lemmas by parity |
| C07–C09 | `image_sources_dfs`, `is_visible_dfs`, `is_obstructed_dfs`, `fill_sources` with the wall operations | induction on the remaining depth, refinement to "all admissible wall words" |
| C10–C16, C79, C80, C91 | `wall.cpp`, `geometry.cpp` over `R` | algebra (`nra`/`field`), induction over vertex lists |
| C17–C19 | `get_max_distance`, `next_wall_hit` | induction over walls, case analysis |
| C20–C21 | `Histogram2D`, `get_new_size` | refinement to a log (list of logged values) |
| C22–C23 | `simul_ray` with fuel and oracles for random directions | invariants along the loop, termination measure |
| C24–C29, C81, C82 | `rir_builder.cpp`, `threadpool.hpp`, `ism.py`, `simulate` | floor/ceil arithmetic; partition lemma; interleaving invariants |
| C30–C34 | `room.py` life cycle as a state machine, `from_corners`, `extrude` | invariants, refutations with witnesses |
| C35–C40, C83 | `stft.py`, `dft.py` as state machines over sample lists | induction over the list of calls |
| C41–C48 | `adaptive/*` | refinement, Lyapunov function, matrix algebra |
| C49–C57, C84, C85 | `acoustics.py`, `parameters.py` | real analysis, case analysis |
| C58–C63, C86 | `utilities.py` | sums, induction |
| C64–C65 | `windows.py`, `sync.py` | trigonometry, sums, Cauchy–Schwarz |
| C66–C70, C87, C88 | `doa/*` | list induction, trigonometry |
| C71–C73, C89 | `beamforming.py` arrays, designs, conversions | history invariants, sums, quadratic forms |
| C74–C77, C90 | `directivities/*`, `random/*` | algebra, integrals over the sphere, fuel induction |
| C78 | `datasets/base.py` | refinement to counting |
| C92–C95 | `rt.py`: histogram interpolation, random times, directions, assembly | sums, floor arithmetic, counting |
| C96–C99 | `soundsource.py`: subsets, orderings, getters, channel matrix | mask/permutation lemmas, sums, refutations with witnesses |
| C100–C103 | mode vectors with numpy indexing, SRP-PHAT, MUSIC, selection of bins | complex inner products, Cauchy–Schwarz with equality case, orthonormal expansions, rounding |
| C104 | `is_inside` with its random reference point | finite sign table for one edge, parity over the edges, separation by a line |
| C105 | `rt60_theory` | sums over walls and bands, tangent of the logarithm (Jensen) |
| C106, C107 | `experimental/rt60.py`: Schroeder integration, selection of the range, regression | last sample with energy, normal equations, Chebyshev's sum inequality, existence of the regression |
| C108 | `multi_convolve`, `compute_ism_rir` with directivities, `angle_function` | products of spectra are linear convolutions, refinement to the relations of C27 and C81 |
| C109 | `projection_back` | completing the square |
| C110, C111 | `auxiva` | Cauchy–Schwarz for the weighted covariance, determinant as an alternating form, majorisation of the contrasts, induction over sources and iterations |
| C112 | `ilrma` | majorisation of the Itakura–Saito fit by Jensen and the tangent of the logarithm; row optimality of C111; a hand-computed run for the refutation |
| C113 | `fastmnmf`, `fastmnmf2` | the images are the inverse of the diagonaliser applied to the shares; signs are an invariant of the updates |
| C114 | `fastmnmf`, `fastmnmf2` | a general majorisation lemma for multiplicative updates with a constant in the denominator; row optimality of C111 |
| C115 | `SpectralSub`, `apply_spectral_sub` | the rows of stored powers are the last lookback+1 powers; general lemma on the loop of the one-shot functions; C34, C64 for exact reconstruction |
| C116 | `IterativeWiener`, `apply_iterative_wiener` | invariant: positive speech spectrum, filter = p/(p+noise), noise below threshold (so the power left after subtraction is positive) |
| C117 | `Subspace`, `apply_subspace` | running sums and histories are windows over the stream; frames of the input buffer are frames of the signal; ordering by eigenvalue is a permutation, so pinv(T) Q T acts on eigenvectors by the gains |
| C118 | `HMM.__init__`, `forward`, `backward`, `update_parameters`, `generate`, `loglikelihood` | scaled recursions are quotients of sums over state sequences; posteriors vanish on impossible transitions |
| C119 | `HMM.fit`, `CircularGaussianEmission.update_parameters` | Jensen on the sequences of positive probability; Gibbs for the rows and the initial state; weighted Gaussian maximum likelihood |
| C120 | `griffin_lim` | Parseval per frame; the overlap-add with the optimal window minimises the squared error of the frames; projecting on the magnitudes is optimal bin by bin |
| C121 | `PointCloud`: EDM, normalize, center, align, flatten, correct, doa | every motion is one map of the points that keeps squared distances; atan2 turns a point onto the axis; the smallest singular value bounds the spread in any direction |
| C122 | `fromEDM`, `classical_mds`, `trilateration*`, `edm_line_search` | double centering gives the Gram matrix; a matrix factoring through K dimensions has at most K nonzero eigenvalues (linear dependence); spectral decomposition |
| C123 | `deconvolve`, `tdoa`, `tdoa_loc` | division of spectra and Parseval; the weighted autocorrelation peaks only at lag zero (as for C65); the linear system has the source as exact solution |
| C124 | `SubbandLMS` | the exact change of the squared distance at an update; summed over the run |
| C125 | `metrics.median` | order statistics and counts of values beyond a point; binomial tails and their monotonicity in the probability; counting samples |
| C126 | `mse`, `snr`, `sweeping_echo_measure` | inequality of the geometric and arithmetic mean with its case of equality; linearity of the streamed transform (C35) |
| C127 | `melfilterbank` | scaled triangles as differences of ramps, telescoping sum |
| C128 | `critical_bands`, `bands_hz2s`, `binning` | monotonicity of rounding, induction over the removal of repeated starts |
| C129 | `prony`, `shanks` | orthogonality of least squares errors; associativity of convolution with the inverse of the denominator |
| C130 | `magnitude_response_to_minimum_phase` | analytic signal of an even sequence of odd length; rfft of irfft for all lengths |
| C131 | `snr`, `udr`, `rake_max_udr_weights`, `rake_max_udr_filters` | whitening by the Cholesky factor, expansion in eigenvectors |
| C132 | `detect_regular_grid`, `calculation_pinv_voronoi_cells` (weights) | sorted unique lists, pigeonhole on pairs, telescoping cosines |
| C133 | `robust_spherical_voronoi_areas` | gaps of the sorted angles around the circle |
| C134 | `harmonics.py`, `cal_sph_basis` (order of the channels) | levels of squares, pairing of opposite orders |
| C135 | `spherical_interpolation`, `_weighted_pinv` | uniqueness of the pseudo inverse gives real gains; projection for least squares |
| C136 | `measured.py` (without plot and reading of files) | nearest point of the sphere is the smallest angle; rotations preserve products; invariant of the cache |
| C137 | `distributions.py`, beta parameters of `power_spherical` | gamma recurrence; Coquelicot's integral with an antiderivative that is flat at the opposite pole |
| C138 | `histogram.py`, `_compute_neighbors`, `min_max_distance` | invariant over pushes and reads |
| C139 | all of `trinicon` | signals on integer times; correlations as double sums |
| C140 | `sparseauxiva`, `sparir` | simulation of AuxIVA on the selected bins; quadratic expansion of the misfit |
| C141 | `Room.image_source_model`, `AnechoicRoom`, `Room.direct_snr` | instance of C01–C04 at order 0 and of C28; triangle inequality |
| C142 | `find_non_convex_walls` | levels of facets are affine; averages of numbers of one sign |
| C143 | `experimental/signals.py` | derivative of the phase; symmetry of the Hann window |
| C144 | `experimental/deconvolution.py` (wiener_deconvolve) | least squares as a relation; normal equations by induction |
| C145 | `room.py` (options of the ray tracer) | floor; invariant over all calls |
| C146 | `doa/cssm.py`, `doa/waves.py` | focusing maps the range of the covariances; ranges and null spaces of sums of Gram matrices; induction over iterations |
| C147 | `doa/tops.py` | dependent rows and vectors of the signal subspace; orthogonal complements |
| C148 | `doa/frida.py`, `doa/tools_fri_doa_plane.py` | Vandermonde matrices and annihilating filters; constrained least squares with Lagrange multipliers; roots of polynomials |
| C149 | `room.py`, `libroom_src/room.hpp`, `libroom_src/microphone.hpp` | reachable states of a room by induction over calls; frames of the tracing loops; ownership of pointers as an invariant of a heap |
| C150 | `transform/stft.py`, `transform/dft.py` | simulation of each channel by the mono object, call by call |
| C151 | `recognition.py` | Gibbs' inequality through doubly stochastic overlaps of eigenvectors; expectation maximisation of C119 |
| C152 | `acoustics.py`, `ism.py` | real gains through irfft/rfft; C54, C108, C130 |
| C153 | `utilities.py` | energies of scaled signals |
| C154 | `directivities/sofa.py` | conversions of C67, index arithmetic of the transposition |
| C155 | `doa/frida.py` (cleaning, dirty image, raw signals) | spectral decomposition of C102, sums over pairs, spread of unit phasors |
| C156 | `multirate.frac_delay` | meaning of the cones, roots of polynomials (C148), reversal of sums |
| C157 | `auxiva` with `init_eig` | unitarity, spectral decomposition; a 2 x 2 witness |
| C158 | `pt_src_recon_multiband`, `mtx_updated_G_multiband_new` | normal equations, Penrose conditions, Vandermonde; a witness with two microphones |
| C159 | `get_num_threads`, `Constants` | case analysis, induction over the settings |
| C160 | `Room.set_air_absorption` | logarithms, interpolation at and beyond the nodes |
| C161 | `get_wall_by_name`, `_wall_mapping`, names of walls | induction over the walls, injectivity of decimal numerals |
| C162 | `pt_src_recon_multiband` with raw signals | block diagonal least squares, shapes |

## 5. Findings: places where the code does not do what one would expect

### 5.1 Proved on the faithful model

Each line is a theorem `exists …` with a concrete witness; the wording of the property
was restricted to the cases in which it holds (or, where the property states the
exception itself, says so).

* `C100_fewer_refuted` (ModeProps.v): Fewer than three indices work only with the table.
* `C100_lists_refuted` (ModeProps.v): Two lists of indices: with the table they are read in parallel, without it they are not.
* `C100_near_refuted` (ModeProps.v): In the near field mode the phases have the wrong sign: they are not, up to a common factor, the phases of a wave from the grid point (delayed by distance over c).
* `C102_normalised_refuted` (MusicProps.v): With the normalisation over frequencies (the default of NormMUSIC) an exact source on the grid makes the values of its frequency infinite over infinite, not a number.
* `C102_zero_refuted` (MusicProps.v): A frame without a peak leaves num_src = 0 behind (locate_sources stores the number of peaks found); with it the slice [-0:] takes all eigenvectors for the signal and the spectrum is infinite at every point.
* `C103_hz_refuted` (BinProps.v): Frequencies in Hz cannot be given.
* `C104_far_refuted` (InsideProps.v): A reference point within the tolerance of the line of a wall counts as a point on that wall: a point a hundred metres away is reported inside.
* `C104_unlucky_refuted` (InsideProps.v): When the draws keep putting the reference point on the line through p and a corner, a point in the middle of the room is reported outside, however many rounds are made.
* `C105_air_refuted` (TheoryProps.v): The absorption of the air is counted once per wall: here the time is a third of Sabine's.
* `C105_eyring_air_refuted` (TheoryProps.v): With hard walls and air absorption, Eyring's time is negative.
* `C105_eyring_refuted` (TheoryProps.v): With unequal walls the time differs from Eyring's formula.
* `C107_impulse_refuted` (MeasureProps.v): A response with a single sample at the start raises.
* `C107_infinite_refuted` (MeasureProps.v): and for one that falls by 20 dB and then by 10 dB more the code divides by zero.
* `C107_last_refuted` (MeasureProps.v): The last sample with energy is always left out: a response that falls by 10 dB is given the time 0,
* `C108_octave_directivity_refuted` (IsmDirProps.v): Documented directivities with one gain per direction and octave band (base.py:56-57) are multiplied without transposing: with two bands and three images there is no result.
* `C109_zero_gain_refuted` (BackProps.v): A signal orthogonal to the reference gets the gain 0 whatever the lower limit.
* `C112_filters_refuted` (IlrmaProps.v): One iteration on two microphones: the filters returned, applied to the input, do not give the first separated signal, not even up to a gain.
* `C113_W0_refuted` (FmnmfProps.v): The array passed as W0 is overwritten: here 2 becomes 1 without a single iteration.
* `C113_singular_refuted` (FmnmfProps.v): With a singular diagonaliser fastmnmf warns and uses the pseudo-inverse; the images then do not add up to the recording.
* `C115_silent_refuted` (DenoiseProps.v): The result of digital silence, with the default parameters, is not finite.
* `C116_frame_refuted` (WienerProps.v): A signal whose frames, with and without window, are all above the threshold, but that is attenuated as noise: the decision is not taken on the frames.
* `C116_inplace_refuted` (WienerProps.v): The array passed as frame_dft is divided by sqrt(frame_len) in place.
* `C116_level_refuted` (WienerProps.v): Without noise the level of the signal is not kept.
* `C117_count_refuted` (SubspaceProps.v): C117, finding: when [skip] does not divide the hop more than [hop // skip] frames are summed, and the "average" is not one: a constant signal of ones has a covariance of twos.
* `C118_retrain_refuted` (HmmCases.v): A left-right model trained on examples of two frames: the last state is never left, its row becomes zero. The samples still have a likelihood, but a second [fit] and [generate] fail.
* `C119_rare_refuted` (HmmCases.v): A state left less than 1e-15 times loses its transitions, and the examples that use it become less likely.
* `C120_ini_refuted` (GlProps.v): The array passed as ini is changed by the call.
* `C120_true_phase_refuted` (GlProps.v): Given the phases and magnitudes of the STFT of a signal, the iterations move away from it.
* `C121_align_axis_refuted` (PcProps.v): So the distances between the points are not kept.
* `C121_normalize_axis_refuted` (PcProps.v): In space the second reference does not come to lie on the x-axis unless it is as high as the first.
* `C122_few_points_refuted` (MdsProps.v): With three points the cost at the true offset is not zero.
* `C122_mds_repeated_refuted` (MdsProps.v): Unit eigenvectors of a repeated eigenvalue that are not orthogonal: the distances of an equilateral triangle come out wrong.
* `C122_tri_refuted` (MdsProps.v): `fromEDM(D, method='tri')` raises for every matrix (undefined name).
* `C123_equidistant_refuted` (LocProps.v): A source at the same distance from all microphones: no delay is left, and an exception.
* `C123_interp_refuted` (LocProps.v): With interpolation by 2, a delay of 4 in signals of 6 samples is out of reach.
* `C123_last_lag_refuted` (LocProps.v): One sample at the end against one sample at the start: the lag appears twice in the array, and the wrong one comes first.
* `C123_planar_refuted` (LocProps.v): A source 12 m above the plane of four microphones on the floor is put on the floor.
* `C123_sign_refuted` (LocProps.v): The documentation promises the delay of the second signal with respect to the first.
* `C123_zero_bin_refuted` (LocProps.v): A test signal of mean zero: the mean of the response is lost, even without noise.
* `C123_zero_mean_refuted` (LocProps.v): A signal of mean zero is reported as shifted with respect to itself: the phase transform divides zero by zero.
* `C125_boundary_refuted` (MedProps.v): Smallest and largest value of all samples of two values contain the median of the population with probability one half, yet at alpha = 1/2 the function raises "no confidence interval found" for each of them: it asks for more than [1 - alpha].
* `C125_sign_refuted` (MedProps.v): The documentation gives the interval as [m - le, m + ue], but the lower value comes with its sign: it is [m + le, m + ue].
* `C126_axis_refuted` (EchoProps.v): The frequencies used for the bins are more than twice those of the transform.
* `C126_columns_refuted` (EchoProps.v): Of arrays with several columns mse returns the sum over the columns, not the mean documented.
* `C126_rate_refuted` (EchoProps.v): At 8 kHz the steepest slope leaves the band before the first frame: the measure is NaN for every response, at the default bandwidth.
* `C126_silence_refuted` (EchoProps.v): A response that starts with two frames of silence (32 ms at 16 kHz: a source 11 m away) has no measure either.
* `C127_empty_refuted` (MelProps.v): Filters at low frequencies that are narrower than a bin are zero: 40 filters on 64 bins at 16 kHz.
* `C128_dct_refuted` (MelProps.v): For a DCT the last band ends before it starts: it should end at N.
* `C128_empty_refuted` (MelProps.v): A band that starts at half the sampling rate is kept, and empty: the critical bands at 24 kHz.
* `C128_sum_refuted` (MelProps.v): ... and does not add them, as documented.
* `C129_truncated_refuted` (PronyProps.v): Finding: the zeros after the end of x count as data. The samples 1, 1/2 of the decay of the pole 1/2 give the pole 2/5, whose prediction misses the second sample.
* `C12_zero_tolerance_refuted` (GeometryProps.v): With eps = 0 the antisymmetry is lost exactly on collinear triples: the code for a degenerate triple is -1 in every order (the dead band is open).
* `C130_even_refuted` (MinphaseProps.v): Finding: with even [n] the filter can have its zero outside the unit circle, here that of two taps with the magnitudes 1 and about 0.004 asked for.
* `C130_nyquist_refuted` (MinphaseProps.v): Finding: with even [n] the magnitude at half the rate can be lost: here it is zero instead of about 0.066.
* `C131_late_refuted` (MeritProps.v): Without an interferer the echoes after the useful window are left out of the detrimental energy: other filters have a larger ratio of useful to detrimental energy than those designed, whose ratio is not the one returned.
* `C131_order_refuted` (MeritProps.v): numpy.linalg.eig lists the eigenvalues in no particular order and rake_max_udr_weights takes the first: with the smaller one first the weights have a ninth of the udr of plain averaging.
* `C132_empty_refuted` (RegridProps.v): Without points the function raises instead of answering that there is no grid.
* `C133_arc_refuted` (AreaProps.v): Four points on a quarter of a great circle, such as measurements in front of a source: the cells cover half the sphere only.
* `C133_axes_refuted` (AreaProps.v): Three points that are not on one great circle: the areas do not add up to that of the sphere. The three axes have, by symmetry, cells of a third of the sphere each.
* `C134_magnitude_refuted` (HarmProps.v): [magnitude=True] is ignored: the response has the sign of the harmonic.
* `C134_phase_refuted` (HarmProps.v): [condon_shortley_phase] should only change signs, by (-1)^m. It also takes away the factor sqrt 2.
* `C135_weights_refuted` (InterpProps.v): The errors are weighted by the squares of the areas, not by the areas as intended: another pattern of the order has a smaller sum of squared errors weighted by the areas of the cells.
* `C136_colatitude_refuted` (MeasuredProps.v): The colatitude is optional, but leaving it out with angles in degrees, the default, raises.
* `C137_negative_refuted` (DensityProps.v): The location may differ from a unit vector by the tolerance; opposite to it the density is then negative.
* `C138_empty_refuted` (HistProps.v): Pushing no points into an empty histogram turns it from zeros to NaN.
* `C138_mass_refuted` (HistProps.v): With cells of different areas it is not, though the histogram integrates to one: one point in a cell of area one and one in a cell of area three give 1/4 and 3/4.
* `C139_padding_refuted` (TriniProps.v): Finding: the padding is computed from the number of microphones (92-95), so that the end of the signals is lost: of five samples four are processed, and the output has seven samples.
* `C13_point_on_segment_refuted` (GeometryProps.v): The tolerance can put the reported point well outside a segment: here it is half a segment length before the start of the second segment.
* `C140_gradient_refuted` (SparseProps.v): Finding: the misfit leaves out the bins above n/2 and counts those below twice (179): with only an upper bin given the gradient vanishes although the response does not fit.
* `C140_silent_refuted` (SparseProps.v): Finding: the final demixing is applied to as many bins as are active, not to all (114, 179): an inactive bin above that number is silent whatever the input.
* `C140_soft_refuted` (SparseProps.v): Finding: soft does not threshold (170): values below the threshold are kept, so the response is not made sparse.
* `C141_direct_refuted` (AnechoProps.v): Finding: the displacements are added to all images, the direct path included (2156-2161): the direct sound comes from elsewhere.
* `C141_snr_scale_refuted` (AnechoProps.v): Finding: the simulated direct sound has the amplitude 1 / d (C141_response), not 1 / (4 pi d): at every distance direct_snr is 16 pi^2 times smaller than the ratio in the simulated signals.
* `C141_snr_source_refuted` (AnechoProps.v): Finding: for other sources the power is that of the first one (2501).
* `C142_tolerance_refuted` (ConvexProps.v): Finding: the tolerance is an area of 1e-5 square metres in two dimensions (libroom.cpp:46 is meant as a length): in an L-shaped room of 3 mm no wall is found, though the inner corner hides points from each other.
* `C143_fade_refuted` (SweepProps.v): Finding: a fade shorter than one sample raises instead of doing nothing (18, where [-0:] is the whole signal).
* `C143_fraction_refuted` (SweepProps.v): Finding: the frequencies are documented as fractions of the sampling frequency (33-36) but taken in hertz: the documented full band, up to 1, cannot be swept.
* `C143_tone_refuted` (SweepProps.v): Finding: a band of one frequency passes the check (52) but divides by log(1): the exponential sweep is NaN, the linear one a tone.
* `C144_noise_refuted` (DeconvProps.v): An impulse as the test signal: however strong the noise is said to be, nothing is attenuated.
* `C145_short_bin_refuted` (RtOptProps.v): A bin that is positive but shorter than a sample becomes zero: with the default number of rays this raises, with a given number the histograms get bins of width zero.
* `C145_small_room_refuted` (RtOptProps.v): A room of 36 litres, with the default options: the default is not a single ray, and sampling the directions of zero rays raises.
* `C146_dropped_refuted` (CssmProps.v): After a bin is dropped the covariances are taken at the wrong positions: here the first of two bins is silent and dropped, the second holds a single source without noise, found by the initial search, but CSSM uses the covariance of the silent bin and returns the same value for every direction.
* `C147_bins_refuted` (TopsProps.v): With other bins the phases do not belong to the bins: with bins 1 and 2 a source without noise is missed, and the only infinite value is at a direction without a source.
* `C148_cache_refuted` (FridaProps.v): A second call at another frequency still uses the mapping of the first: whenever the Bessel function of order zero differs at 1 and 2 (it does), the mapping used is not that of the frequency.
* `C149_array_refuted` (RtRoomProps.v): With ray tracing on, microphones with a directivity can be added one by one but not as an array.
* `C149_bins_refuted` (RtRoomProps.v): The bins are those at the time a microphone was added: after [set_ray_tracing] with bins of 10 ms (or, likewise, [set_sound_speed]) on a room that has its microphone, the histograms still have bins of 4 ms, but are read as bins of 10 ms: a hit after 9 ms is in bin 2.
* `C149_source_refuted` (RtRoomProps.v): A source with a directivity that is neither a cardioid nor measured (spherical harmonics, say) is not added, and there is no error.
* `C149_trees_refuted` (RtRoomProps.v): A microphone added after a ray tracing with a directive microphone: the vector of microphones is reallocated, which deletes the tree that the copy still points to, and the next ray tracing deletes it again.
* `C150_column_refuted` (StftMultiProps.v): A signal with one column (documented as valid) is rejected, though the same samples in an array with one axis are transformed.
* `C150_filter_refuted` (StftMultiProps.v): A filter given as an array with one axis, on two channels: when the number of bins is the number of channels, no error is raised and the low pass filter [1, 0] removes the second channel instead of the second bin (otherwise the product raises).
* `C150_short_refuted` (StftMultiProps.v): The transform of two channels that fit in one frame has no axis for the frames, and the inverse transform takes the channels for bins of frames: it raises.
* `C151_singular_refuted` (GaussProps.v): After an update on too few frames the covariance is singular and the next iteration raises: two frames of two components.
* `C152_early_refuted` (SynthRirProps.v): An arrival after one sample of travel (and one of filter delay) comes one sample early with octave bands: n_fft / 2 samples are cut but the filters delay by n_fft / 2 - 1 (ism.py:230-234).
* `C152_leak_refuted` (SynthProps.v): The minimum phase bands do not sum to the signal: they amplify a constant signal by 1.02.
* `C152_polarity_refuted` (SynthProps.v): Polarity is lost with minimum phase: opposite coefficients give the same filter.
* `C153_offset_refuted` (NoisyProps.v): An offset of one sample or more makes the call fail for every signal of two frames or more: the noise is longer than the signal, which is not delayed.
* `C153_range_refuted` (NoisyProps.v): The noisy signal is not within [-1, 1] as documented: the mean is removed after the normalisation.
* `C153_untouched_refuted` (NoisyProps.v): The clean signal it returns is not untouched as documented but scaled with the sum.
* `C154_upper_refuted` (SofaProps.v): A file that follows the standard with no position below the horizon is misread: the elevation is taken for the colatitude, and a source straight ahead is placed overhead.
* `C155_overlap_refuted` (FridaImgProps.v): With frames that overlap by half a stationary tone in an odd bin averages to nothing.
* `C157_correlated_refuted` (AuxEigProps.v): The eigenvectors end up in the columns instead of the rows: with the correct eigenvectors (and the signs LAPACK gives them, a positive largest component) the outputs at the start are correlated.
* `C158_noise_refuted` (FridaAmpProps.v): C158. With noise the amplitudes are not the non-negative ones that fit the visibilities best: non-negative least squares is applied to the normal equations instead of the equations.
* `C159_openmp_refuted` (ThreadsProps.v): C159. OMP_NUM_THREADS and MKL_NUM_THREADS, which the documentation lists, have no effect: they are looked up as attributes of os.environ instead of as its entries.
* `C159_zero_refuted` (ThreadsProps.v): C159. The number is not checked: PRA_NUM_THREADS = 0 gives zero threads, with which impulse responses are never computed.
* `C160_example_refuted` (AirProps.v): C160. The example of the documentation: the coefficients above one are changed to one.
* `C160_replicated_refuted` (AirProps.v): C160. The documentation says that missing values at the end are replicated from the last one: they are extrapolated, to zero in this case.
* `C161_floor_refuted` (NamesProps.v): C161. A room that was extruded has walls called floor and ceiling, but get_wall_by_name raises for them.
* `C162_update_refuted` (FridaRawProps.v): C162. An array and a source for which visibilities could be used with updates, but raw signals raise.
* `C16_tolerance_band_refuted` (GeometryProps.v): Inside the tolerance band the answer is wrong on both sides: a point strictly inside the unit square, one micrometre from the right edge, is reported outside (not "boundary"), and a point strictly outside, one micrometre left of the left edge, is reported inside.
* `C18_hit_in_front_refuted` (RayProps.v): The tolerance of the intersection test is relative to the segment, which is as long as the room: a ray starting less than eps * max_dist from a wall and moving away from it is reported to hit that wall, behind its start.
* `C19_shoebox_index_2d_refuted` (RayProps.v): In 2D the walls are stored south, east, north, west but the index is computed in the order west, east, south, north: a ray going west reports the south wall.
* `C20_row_log_refuted` (HistogramProps.v): A row with one value per column is rejected by Eigen as soon as there are two columns.
* `C21_zero_size_diverges` (HistogramProps.v): From size zero no number of iterations is enough.
* `C23_source_at_microphone_refuted` (RayProps.v): A microphone placed at the source is always reached at distance zero by the first hop: the energy logged is a division by zero.
* `C29_negative_delay_refuted` (SimulateProps.v): A negative source delay is accepted and the microphone signal is not the sum of the delayed convolutions.
* `C29_source_without_signal_refuted` (SimulateProps.v): The loop has a branch that skips sources without a signal (room.py:2447-2448), but the sizing code before it (room.py:2434-2437) raises first.
* `C30_occluded_microphone_refuted` (RoomProps.v): A microphone that sees none of the images another microphone sees makes the computation fail.
* `C30_occluded_source_refuted` (RoomProps.v): A source that no microphone can see (the image source search returns nothing) is rendered with its direct sound: the integer zeros used as visibility select image 0.
* `C30_old_bin_width_refuted` (RoomProps.v): Microphones placed before set_ray_tracing keep the bin width of the default options, but their histograms are read with the new one.
* `C30_source_added_after_compute_refuted` (RoomProps.v): A source added after a computation makes the next one fail: the image cache is considered valid.
* `C30_stale_histograms_refuted` (RoomProps.v): New ray tracing options after a computation are ignored: the histograms are not redone.
* `C30_unset_air_absorption_refuted` (RoomProps.v): Air absorption cannot be switched off again: the coefficients stay in use.
* `C31_extrude_loses_microphones_refuted` (RoomProps.v): Extruding a room replaces the engine, and with it the microphones it knew.
* `C32_clockwise_materials_refuted` (PolyRoomProps.v): The wall between the first two corners of a clockwise rectangle does not get the first material.
* `C33_area_in_2d_refuted` (PolyRoomProps.v): In two dimensions get_volume still divides by three: a 4 by 3 room of area 12 has "volume" 8.
* `C39_padding_twice_refuted` (StftProps.v): Asking for the same padding twice makes every analysis raise.
* `C39_reset_refuted` (StftProps.v): Before any analysis there is nothing to reset.
* `C40_dft_window_refuted` (StftProps.v): DFT.analysis with a window multiplies the caller's array in place.
* `C40_process_refuted` (StftProps.v): Otherwise the caller's spectrum is filtered in place.
* `C41_empty_buffer_refuted` (BufferProps.v): A buffer of length 0 cannot be pushed to.
* `C41_flush_zero_refuted` (BufferProps.v): flush(0) fails as soon as the buffer holds something; a buffer of length 0 cannot be pushed to.
* `C42_descending_range_refuted` (BufferProps.v): A descending range that starts beyond the table is silently cut short.
* `C43_returned_flips_change_refuted` (BufferProps.v): The array returned is a window on the buffer: a later request changes it. Here the first two flips of a buffer of four, looked at again after a request of three.
* `C44_silence_refuted` (LmsProps.v): With mu given but no input energy, NLMS divides zero by zero and the weights are NaN from then on.
* `C45_length_one_refuted` (LmsProps.v): A block LMS filter of length 1 fails at its first complete block.
* `C48_strang_one_refuted` (ToepProps.v): A one by one matrix is rejected by Strang's approximation (slice [-0:]).
* `C50_order_space_refuted` (ReverbProps.v): In space it is not so: the diagonal images come sooner than the order allows for.
* `C50_plane_refuted` (ReverbProps.v): In a plane the absorption found does not give the target back, but twice the target.
* `C51_air_negative_refuted` (ReverbProps.v): The Eyring time with air absorption can be negative.
* `C51_air_refuted` (ReverbProps.v): With air absorption the Eyring formula has the wrong sign: its result grows with the absorption of the air, may exceed the Sabine value, and may even be negative.
* `C53_default_refuted` (AntoniProps.v): The default bank (overlap one half, 16 kHz, 512 points): the transitions of bands 1 and 2 overlap at bin 7 (219 Hz), whose energy is counted more than once.
* `C54_no_dc_refuted` (BandsProps.v): Without the option that keeps the mean, the filters of the cosine bank do not sum to one at frequency zero.
* `C57_caller_dict_refuted` (ParamProps.v): The dictionary the caller passes may come back changed, so that using it again gives another material than the first time.
* `C57_unchecked_refuted` (ParamProps.v): Coefficients are not checked: a flat coefficient outside 0..1 is clipped by the second resampling but not by the first.
* `C59_complex_refuted` (LevinsonProps.v): With a complex first column the documented system is not the one solved.
* `C61_lossless_refuted` (UtilProps.v): to_16b after to_float32 does not give the integer samples back.
* `C61_silence_refuted` (UtilProps.v): normalize of a silent signal divides by zero.
* `C61_unsigned_refuted` (UtilProps.v): Unsigned samples are divided by zero.
* `C63_long_lag_refuted` (CorrProps.v): Longer lags with the Fourier method come out mirrored instead of zero.
* `C64_bart_hann_refuted` (WindowProps.v): The symmetric Bartlett-Hann window is not symmetric.
* `C64_bart_refuted` (WindowProps.v): bart, bart_hann and blackman divide the normalised time once more: not symmetric.
* `C64_blackman_refuted` (WindowProps.v): The symmetric Blackman window is not symmetric.
* `C64_harris_refuted` (WindowProps.v): The last Blackman-Harris coefficient is added instead of subtracted: the window does not reach one at its centre.
* `C64_mdct_refuted` (WindowProps.v): The mdct flag always raises (float slice bounds).
* `C64_single_refuted` (WindowProps.v): Symmetric windows of length one divide by zero.
* `C64_triang_odd_refuted` (WindowProps.v): The right half of a triangular window has negative samples.
* `C65_silence_refuted` (SyncProps.v): Silence: two identical silent signals are reported as shifted by their length.
* `C65_single_sample_refuted` (CorrProps.v): A second signal of one sample: the whole array is returned, followed by a copy of itself.
* `C66_constant_refuted` (GridProps.v): A constant spectrum has no peak; asking for zero peaks returns all of them.
* `C66_zero_refuted` (GridProps.v): Asking for zero peaks returns all of them.
* `C69_radius_refuted` (SphereProps.v): The radius is ignored: on a circle of radius 2 the distance should be twice as large.
* `C70_forgets_refuted` (GridProps.v): One spectrum with fewer peaks and later calls search for fewer sources (after a constant spectrum: for all peaks).
* `C71_center_refuted` (ArrayProps.v): Findings. The centre is computed once, at construction.
* `C71_list_refuted` (ArrayProps.v): A nested list is concatenated to the positions and only then rejected: the array is left with more microphones than directivities.
* `C71_resample_refuted` (ArrayProps.v): Without the samplerate package a recording at another rate raises although the resampled signal has already been computed and stored.
* `C72_degrees_refuted` (ArrayGeomProps.v): With a rotation, documented in degrees, the positions take it as radians while the orientations take it as degrees: already for one degree the first microphone's directivity does not point away from the centre, and its position is not at that angle.
* `C73_attenuation_refuted` (BeamProps.v): With the attenuation (the default) the response to the very wave the array receives is not one.
* `C73_causal_refuted` (BeamProps.v): They are meant to be causal (the comment in the code says so), but a microphone hit later than the first one needs an advance: there is an array for which the filters are not a set of non-negative delays.
* `C73_far_attenuation_refuted` (BeamProps.v): Delay-and-sum weights for a far source with the attenuation switched on (the near field default) raise.
* `C73_far_field_gain_refuted` (BeamProps.v): The gain towards the look direction is M, not 1.
* `C73_far_images_refuted` (BeamProps.v): With several images the directions are divided by the norm of all of them together: repeating the image shrinks every delay.
* `C73_no_noise_refuted` (BeamProps.v): With the default arguments (no noise covariance) and no interferer the weights of the one-forcing beamformer vanish, and so does its response; those of the maximum-SINR beamformer are not finite.
* `C73_rcond_refuted` (BeamProps.v): Without an interferer the regularisation constant is added to every entry of the covariance matrix instead of to its diagonal.
* `C74_func_in_place_refuted` (CardioidProps.v): ... but its arguments are normalised in place: the caller's array changes.
* `C74_magnitude_refuted` (CardioidProps.v): The magnitude is never returned by the objects.
* `C74_orientation_refuted` (CardioidProps.v): After set_orientation the rays still follow the old direction.
* `C76_gain_refuted` (RandomProps.v): with a larger gain it is not: here two directions of different density are both always kept.
* `C76_silent_refuted` (RandomProps.v): With a density that vanishes the loop never ends.
* `C76_zero_refuted` (RandomProps.v): Asking for no samples gives one.
* `C77_generator_refuted` (RandomProps.v): The sample is not determined by the generator given: the package's own generator is used for the direction.
* `C77_unit_refuted` (RandomProps.v): The guard is not harmless near e1: the sample can even be the zero vector.
* `C78_unhashable_refuted` (DatasetProps.v): A sample with an unhashable attribute raises after the attributes before it were counted: the table then counts samples that are not there.
* `C80_lambertian_2d_refuted` (WallProps.v): A 2D wall never assigns [basis]: with unlucky memory contents the "Lambertian" sample of a properly constructed 2D wall is not a unit vector, and the ray direction after the bounce points out of the room.
* `C81_unchecked_delay_refuted` (RirProps.v): The fractions are not checked: a delay of 5 samples reads outside the lookup table.
* `C83_front_padding_refuted` (StftProps.v): set_filter also counts the padding in front, but the end of the convolution then wraps to the front: the output starts before the input.
* `C84_energy_refuted` (AntoniProps.v): So the energies do not add up to the energy of the signal.
* `C84_short_refuted` (AntoniProps.v): And the default bank does not reconstruct a signal of 256 samples.
* `C85_energy_refuted` (BandsProps.v): energy does not return one value per band but one per sample.
* `C86_long_refuted` (LpcProps.v): Asking for as many coefficients as samples, or more, returns fewer.
* `C88_single_refuted` (SphereProps.v): With a single direction on one side the index of it is 1 instead of 0.
* `C89_add_refuted` (BeamTdProps.v): Adding two beamformers swaps the FFT length and the filter length of the result.
* `C89_nyquist_refuted` (BeamTdProps.v): The imaginary part of the last weight (and of the first) is lost.
* `C89_stale_refuted` (BeamTdProps.v): But a design is never invalidated by a later one: after processing once, new weights have no effect on time-domain processing.
* `C90_libroom_refuted` (RandomProps.v): Seeding libroom alone throws the seed of the numpy generator away.
* `C92_single_refuted` (RtProps.v): With a single bin of an even number of samples everything is lost.
* `C92_small_bins_refuted` (RtProps.v): With bins of one sample it fails.
* `C92_tail_refuted` (RtProps.v): So the last value is not repeated after the broken line, as the description says.
* `C93_rate_refuted` (RtSeqProps.v): The rate of reflections arriving at time [t] in a room is [4 pi c^3 t^2 / V]. The rate used is not that one, even when it is below the maximum: the start time is added to the time once more.
* `C94_direction_refuted` (RtSeqProps.v): The column of the histogram used for a delta is not the one of its time: the start time is subtracted. A delta can come from a direction from which no energy arrives in any bin.
* `C96_directivity_refuted` (SourceProps.v): The directivity is lost.
* `C96_engine_refuted` (SourceProps.v): After the simulation has stored its images in a new source, slices see order 0 only: [src[:]] and [src[0:2]] do not contain the first order images.
* `C96_generators_refuted` (SourceProps.v): The generators are not renumbered: the image of the subset has a generator that is not in it.
* `C96_integer_refuted` (SourceProps.v): An integer between the brackets always raises.
* `C96_optional_refuted` (SourceProps.v): Images cannot be given without generators, walls and orders, though they are optional.
* `C97_failed_refuted` (SourceProps.v): A request for an ordering by distance that fails (no reference point) still changes the ordering mode, so later slices by order select other images.
* `C97_list_refuted` (SourceProps.v): A list of positions does not follow the ordering, unlike a slice.
* `C97_stale_refuted` (SourceProps.v): The order is that of the images at the time of the call: the images that a simulation adds afterwards are left out.
* `C97_strongest_refuted` (SourceProps.v): 'strongest' is refused for every source, and yet changes the ordering of the object.
* `C98_damping_refuted` (SourceProps.v): [get_damping()] always raises.
* `C98_flat_refuted` (SourceProps.v): A reference point given flat is used wrongly when there are as many images as dimensions: the nearest image is not returned.
* `C98_wall_sequence_refuted` (SourceProps.v): [wall_sequence] never returns: it runs for ever or raises.

### 5.2 Seen while reading, outside the model

* threadpool.hpp / rir_builder.cpp: with 0 threads accepted tasks never run and `result.get()`
  blocks for ever; the block size is a division by zero.  `rir_builder` with `fdl = 1` divides
  0 by 0 in the Hann window; `*max_element` of an empty time array is undefined.
* rir_builder / delay_sum / fractional_delay: arrays of another type than float32/float64 are
  silently ignored (the output stays as it was).
* room.py: `direct_snr` uses the signal of source 0 for every source; `sigma2_awgn` set by a call with `snr` persists;
  the `raise` at the end of `is_inside` cannot be reached;
  `find_non_convex_walls` never reports `walls[0]`; the `len(p) != 2 or len(p) != 3` check of
  the ShoeBox constructor accepts everything; an empty source signal makes `simulate` raise;
  `add_source(SoundSource, directivity=...)` makes a source whose position is the source object;
  two rooms given the same `MicrophoneArray` share it.
* libroom: the setter of `wall.absorption` does not update the transmission coefficients;
  arrays filled for a source keep the previous values when no image is visible.
* soundsource.py: after a simulation `generators` is a float array of −1; in `build_rir_matrix` the first
  omitted sample can exceed epsilon because the length is rounded down.
* acoustics.py: filter bank objects called with a scalar raise; `octave_bands(third=True)` gives
  3n − 2 bands; `broadcast_bands_to` changes `n_bands` before raising.
* stft.py: `num_frames = 0` rejects chunks of one hop in several channels and its methods return
  None; returned arrays are views of internal buffers; `nfft = 1` is unusable.
* adaptive: the `d` buffer of BlockRLS grows without bound; `hankel_stride_trick` assumes
  contiguous memory; `autocorr` of a signal of length one divides by zero.
* windows.py: gaussian, kaiser and bohman ignore `length`; the coefficient a3 of flattop has
  the wrong sign.
* doa.py: the near field mode is never passed on to the mode vectors; several distances `r` make
  the constructor raise.  music.py: `plot_individual_spectrum` indexes the spectrum as
  (frequency, point) though it is stored as (point, frequency).
* beamforming.py: appending an array with another sampling rate is accepted silently;
  `rake_max_udr_weights` raises for a single image; `rake_max_sinr_filters`,
  `rake_distortionless_filters` and `rake_one_forcing_filters` use float sizes and raise;
  `rake_perceptual_filters` adds to the caller's covariance matrix.
* directivities: `get_azimuth`/`get_colatitude` pass `degrees` twice and raise;
  `CardioidEnergyDistribution(p=None)` raises though documented; the base class `get_response`
  passes a (3, n) array where (n, 3) is expected; `SphericalHistogram.find_peak` passes `self`
  twice; four or more points that are not at distance one from the centre make `SphericalVoronoi`
  raise a ValueError, which `robust_spherical_voronoi_areas` takes to mean that they are on a great circle.
* datasets/utils.py: `download_multiple` without a backoff raises.
* denoise/subspace.py: `data_type=np.float64` given as a type, not a string, is treated as float32;
  with `frame_len=2` the Hann window is zero and so is the output.
* recognition.py: `HMM.viterbi` has an empty body and returns None; training on examples of one frame makes all
  transition rows zero, so every longer sample has the log-likelihood NaN instead of -inf.
* phase/gl.py: with `n_iter=0` and a callback the last call uses the undefined `epoch` and raises.
* experimental/point_cloud.py: the constructor keeps the caller's array, so `center`, `align` and `correct` modify it; `copy` (documented as deep) shares the list of labels.
* acoustics.py: `mfcc` passes `transform=` to `stft.analysis`, which has no such parameter, so it always raises a TypeError; `recognition.py` and the TIMIT features depend on it.
* directivities/measured.py: a `breakpoint()` is left before the ValueError for a wrong number of microphone labels, so the debugger starts; `_get_measurement_index` does not accept numpy integers.
* directivities/histogram.py: `find_peak` passes the histogram itself as the number of peaks and always raises; the argument `dim` is ignored; `histogram` returns its internal array, which later reads overwrite.
* bss/common.py sparir: `gini == 0` raises for an initial array, and weights of several values are reshaped to one dimension and then indexed with a two-dimensional mask, which raises.
* bss/sparseauxiva.py: the updates of the demixing matrices run over all bins, not only over the active ones, so the method is not cheaper and a singular inactive bin raises.
* room.py image_source_model: when no image is visible the images, orders and dampings of a previous call stay on the source while the visibility gets a single column.
* room.py find_non_convex_walls: corners come from libroom in single precision but are compared with 1e-10, so oblique walls on the hull are mostly kept as obstructing (slower, not wrong).
* experimental/delay_calibration.py: `sd` is only imported when the file runs as a script, so DelayCalibration.run raises NameError after an import; the columns of `delays` are indexed by channel number, not by position in `ch_out`.
* experimental/measure_ir.py: the tiled `play_signal` and `N` are computed and not used; the response is deconvolved with the sweep without the silence before it, so it starts `pre_delay` late.
* metrics.py: `itakura_saito` calls the module `stft` as a function for the second signal and always raises a TypeError.
* multirate.py: `resample` uses `fractions.gcd`, which current Python versions no longer have, and divides its integers into floats that are then used as sizes; it always raises.
* utilities.py: `spectrum` and `compare_plot` import `.stft`, which is not in the package any more, and raise.

## 6. Assumptions per theorem

What `Print Assumptions` lists, for every theorem named in MANIFEST.json.  Abbreviations:

* **F** = `FunctionalExtensionality.functional_extensionality_dep`
* **D** = `ClassicalDedekindReals.sig_forall_dec`
* **N** = `ClassicalDedekindReals.sig_not_dec`
* **C** = `Classical_Prop.classic`
* **–** = closed under the global context

* **C01**: DNF: `C01_shoebox_image_count`
* **C02**: DNF: `C02_shoebox_images_are_l1_ball`
* **C03**: DNF: `C03_shoebox_positions_are_mirror_images`
* **C04**: DNF: `C04_shoebox_attenuation`; DF: `C04_words_count_wall_crossings`
* **C05**: DNF: `C05_shoebox_departure_direction`
* **C06**: DNF: `C06_shoebox_passive`, `C06_shoebox_monotone_in_absorption`, `C06_shoebox_orders_nested`
* **C12**: DF: `C12_ccw_is_signed_area`, `C12_ccw_symmetry`, `C12_intersection_test_symmetry`, `C12_zero_tolerance_refuted`
* **C13**: DF: `C13_intersection_2d_sound`, `C13_intersection_2d_strict_iff`, `C13_intersection_2d_none`, `C13_intersection_2d_codes`, `C13_point_on_segment_refuted`
* **C14**: DF: `C14_segment_plane_sound`, `C14_segment_plane_complete`, `C14_segment_plane_same_side`
* **C15**: DF: `C15_area_is_shoelace`, `C15_area_laws`
* **C16**: DF: `C16_boundary`, `C16_left_of_all_edges_is_inside`, `C16_convex_polygon_decided`, `C16_separated_is_outside`, `C16_tolerance_band_refuted`
* **C10**: DF: `C10_reflect_is_mirror_image`, `C10_reflect_involution`, `C10_reflect_fixes_plane`, `C10_codes`; DNF: `C10_reflect_isometry`
* **C11**: DNF: `C11_reflection_preserves_length`, `C11_reflected_point_distance`; DF: `C11_reflection_reverses_normal_component_only`, `C11_reflection_involution`
* **C79**: DNF: `C79_wall2_normal`, `C79_wall3_normal`, `C79_shoebox_walls_3d`, `C79_shoebox_walls_2d`
* **C80**: DNF: `C80_lambertian_sample`, `C80_bounce_points_inward`, `C80_lambertian_2d_refuted`
* **C17**: DNF: `C17_max_distance_exceeds_hull`
* **C18**: DNF: `C18_next_wall_hit_is_nearest`, `C18_no_wall_in_hull_is_missed`, `C18_hit_on_ray_and_plane`, `C18_hit_in_front_refuted`
* **C19**: DNF: `C19_shoebox_hit_sound`, `C19_shoebox_hit_found`, `C19_shoebox_index_3d`, `C19_shoebox_index_2d_refuted`
* **C22**: DNF: `C22_ray_terminates`, `C22_ray_energy_and_distance`, `C22_energy_never_increases`, `C22_ray_path`
* **C23**: DNFC: `C23_specular_arrivals`, `C23_specular_energy`, `C23_scattered_arrivals`, `C23_source_at_microphone_refuted`
* **C07**: DNF: `C07_images_are_genuine`
* **C08**: DNF: `C08_images_are_exactly_the_visible_sequences`
* **C09**: DNF: `C09_visible_image_has_a_reflected_path`
* **C20**: DF: `C20_histogram_is_the_log`; D: `C20_logging_succeeds`, `C20_row_log_refuted`; DNF: `C20_microphone_collects_arrivals`
* **C21**: –: `C21_growth_terminates_and_covers`, `C21_zero_size_diverges`
* **C24**: DNF: `C24_rir_builder_in_bounds`
* **C25**: DNF: `C25_rir_builder_thread_independent`, `C25_any_two_executions_agree`
* **C27**: DF: `C27_delay_sum_is_overlap_add`
* **C28**: DNF: `C28_ism_sizes_are_accepted`, `C28_ism_response`
* **C81**: DNF: `C81_fractional_delay_rows`, `C81_unchecked_delay_refuted`
* **C26**: –: `C26_fifo_exactly_once`, `C26_destructor_drains`, `C26_shutdown_terminates`, `C26_no_lost_wakeup`, `C26_no_task_accepted_after_stop`
* **C29**: DNFC: `C29_simulate_sums_convolutions`, `C29_callback_sees_contributions`, `C29_source_without_signal_refuted`, `C29_negative_delay_refuted`
* **C82**: DNFC: `C82_snr_is_honoured`
* **C30**: D: `C30_image_source_room_is_current`, `C30_ray_tracing_room_is_current`, `C30_occluded_source_refuted`, `C30_occluded_microphone_refuted`; DF: `C30_unset_air_absorption_refuted`, `C30_source_added_after_compute_refuted`, `C30_stale_histograms_refuted`, `C30_old_bin_width_refuted`
* **C31**: D: `C31_engine_and_room_agree`; DF: `C31_extrude_loses_microphones_refuted`
* **C32**: DNF: `C32_counterclockwise_room`, `C32_stored_counterclockwise`, `C32_bad_input_rejected`, `C32_clockwise_room`, `C32_clockwise_materials_refuted`
* **C33**: DNF: `C33_extrude_prism`, `C33_from_corners_extruded`, `C33_shoebox_volume`, `C33_area_in_2d_refuted`
* **C34**: DF: `C34_shoebox_is_inside`, `C34_other_lengths`
* **C41**: –: `C41_buffer_is_a_stack`, `C41_flush_zero_fails`, `C41_flush_zero_refuted`, `C41_empty_buffer_refuted`
* **C42**: D: `C42_powers`, `C42_descending_range_refuted`
* **C43**: –: `C43_flips_are_never_reused`, `C43_returned_flips_change_refuted`
* **C44**: DF: `C44_nlms_update`, `C44_nlms_run`, `C44_silence_ruins_the_weights`, `C44_silence_refuted`
* **C45**: DNF: `C45_block_lms`, `C45_block_one_is_nlms`; –: `C45_length_one_refuted`
* **C46**: DF: `C46_rls_least_squares`, `C46_rls_inverse`, `C46_block_rls`, `C46_block_equals_samplewise`
* **C47**: DNF: `C47_toeplitz`, `C47_toeplitz_rejects`, `C47_hankel`, `C47_autocorr`
* **C48**: DF: `C48_optimal`, `C48_optimal_symmetric`; D: `C48_strang`, `C48_strang_one_refuted`
* **C35**: DNF: `C35_streaming`, `C35_chunking`, `C35_batch`; –: `C35_batch_covers`
* **C36**: DNF: `C36_synthesis`
* **C37**: DNF: `C37_streaming_reconstruction`, `C37_batch_reconstruction`
* **C38**: DF: `C38_synthesis_window`, `C38_defined`; DNF: `C38_reconstruction`
* **C39**: DNF: `C39_padding_once`, `C39_padding_accumulates`, `C39_padding_twice_refuted`; D: `C39_reset_refuted`
* **C40**: DNF: `C40_dft_without_window`, `C40_dft_with_window`, `C40_dft_window_refuted`; D: `C40_process_fixed`; DF: `C40_process_refuted`
* **C83**: DNF: `C83_filtering`, `C83_front_padding_refuted`
* **C49**: DNFC: `C49_mel_inverse`, `C49_mel_increasing`, `C49_invmel_increasing`
* **C50**: DNFC: `C50_round_trip`, `C50_rejects`, `C50_order_plane`, `C50_plane_refuted`, `C50_order_space_refuted`
* **C51**: DNFC: `C51_eyring_below_sabine`, `C51_decreasing`, `C51_air_refuted`, `C51_air_negative_refuted`
* **C55**: DF: `C55_from_speed`, `C55_default_temperature`; –: `C55_constants`
* **C56**: DF: `C56_found`, `C56_heading`
* **C57**: DNFC: `C57_rectangular`, `C57_shared`, `C57_flat_value`, `C57_repeat`, `C57_defined`, `C57_range`, `C57_node`, `C57_between`, `C57_unchecked_refuted`; D: `C57_init`; DF: `C57_caller_dict_refuted`
* **C52**: DNFC: `C52_tile`, `C52_count`, `C52_nyquist`, `C52_centers_increasing`
* **C53**: DNFC: `C53_energy`, `C53_at_least_one`, `C53_wide`, `C53_default`, `C53_no_overlap`, `C53_default_refuted`
* **C54**: DNF: `C54_sum`, `C54_no_dc`, `C54_no_dc_refuted`
* **C84**: DNFC: `C84_reconstruct`, `C84_default`, `C84_energy`, `C84_energy_refuted`, `C84_short_refuted`
* **C85**: DNF: `C85_factory_sum`, `C85_energy_refuted`
* **C58**: DF: `C58_convmtx`
* **C59**: DF: `C59_sound`, `C59_defined`, `C59_real`, `C59_posdef`, `C59_complex_refuted`
* **C60**: DNF: `C60_goertzel`, `C60_dft`
* **C61**: DNFC: `C61_no_overflow`, `C61_round_trip`, `C61_lossless_refuted`, `C61_unsigned_refuted`; DF: `C61_clip`, `C61_normalize`, `C61_silence_refuted`
* **C62**: DNF: `C62_bank`, `C62_shift`
* **C63**: DNF: `C63_autocorr`, `C63_long_lag_refuted`
* **C65**: DNF: `C65_correlate`, `C65_single_sample_refuted`, `C65_tdoa`, `C65_silence_refuted`, `C65_time_align`, `C65_aligned`
* **C86**: DNF: `C86_yule_walker`, `C86_optimal`, `C86_long_refuted`
* **C66**: DF: `C66_circle`, `C66_global`, `C66_sphere`, `C66_constant_refuted`, `C66_zero_refuted`
* **C87**: DF: `C87_peaks`, `C87_distance`
* **C67**: DNF: `C67_radius`; DNFC: `C67_back`, `C67_forth`, `C67_great_circle`, `C67_triangle`, `C67_zero`
* **C68**: DNF: `C68_fibonacci`, `C68_circle_grid`; DNFC: `C68_sphere_grid`
* **C69**: DNFC: `C69_shortest`, `C69_metric`, `C69_radius_refuted`
* **C88**: DNFC: `C88_matching`, `C88_single_refuted`
* **C71**: DF: `C71_consistent`, `C71_history`, `C71_record`, `C71_center_refuted`, `C71_resample_refuted`; D: `C71_append`, `C71_list_refuted`; –: `C71_directivity`
* **C72**: DNF: `C72_linear`, `C72_circular`, `C72_square`, `C72_spiral`, `C72_outward`; DF: `C72_poisson`; DNFC: `C72_degrees_refuted`
* **C73**: DNF: `C73_far_field`, `C73_delay_and_sum`, `C73_far_distance`, `C73_max_sinr_unit`, `C73_max_sinr`, `C73_one_forcing`, `C73_causal_refuted`, `C73_far_field_gain_refuted`, `C73_far_attenuation_refuted`, `C73_far_images_refuted`, `C73_no_noise_refuted`; DF: `C73_mvdr`, `C73_perceptual`, `C73_rcond_refuted`; DNFC: `C73_attenuation_refuted`
* **C89**: DNF: `C89_filters`, `C89_weights`, `C89_round_trip`, `C89_latest`, `C89_nyquist_refuted`, `C89_stale_refuted`; DF: `C89_process`; –: `C89_add`, `C89_add_refuted`
* **C74**: DNFC: `C74_make`, `C74_energy`, `C74_pdf`; DNF: `C74_pattern`, `C74_angles`, `C74_range`, `C74_symmetric`, `C74_func`, `C74_rays`, `C74_func_in_place_refuted`, `C74_magnitude_refuted`, `C74_orientation_refuted`
* **C75**: DNF: `C75_accepts`, `C75_rotation`, `C75_order`
* **C76**: DF: `C76_samples`, `C76_efficiency`, `C76_terminates`, `C76_envelope`, `C76_silent_refuted`, `C76_zero_refuted`; DNF: `C76_cardioid`, `C76_gain_refuted`
* **C77**: DNF: `C77_uniform`, `C77_power`, `C77_unit_refuted`, `C77_generator_refuted`
* **C78**: –: `C78_match`, `C78_counts`, `C78_filter`, `C78_unhashable_refuted`
* **C90**: –: `C90_reproducible`, `C90_separate`, `C90_libroom_refuted`
* **C91**: DNFC: `C91_cosine`; DNF: `C91_cosine_laws`, `C91_distance`, `C91_distance_zero`
* **C92**: DF: `C92_anchors`, `C92_interp`, `C92_bounds`, `C92_tail`, `C92_tail_refuted`, `C92_single_refuted`, `C92_small_bins_refuted`
* **C93**: DNFC: `C93_times`, `C93_ends`, `C93_default_start`; DNF: `C93_rate_refuted`
* **C95**: DNFC: `C95_no_energy`, `C95_runs`, `C95_one_band`, `C95_causal`, `C95_bands`, `C95_air`, `C95_scale`
* **C94**: DF: `C94_choice`, `C94_places`; DNF: `C94_sequence`, `C94_unit_energy`, `C94_direction_refuted`
* **C97**: DNF: `C97_nearest`, `C97_strongest_refuted`, `C97_failed_refuted`, `C97_stale_refuted`, `C97_list_refuted`
* **C98**: D: `C98_up_to_order`, `C98_all`; DNF: `C98_nearest`, `C98_flat_refuted`; DF: `C98_damping_refuted`, `C98_wall_sequence_refuted`
* **C99**: DNF: `C99_matrix`, `C99_truncation`
* **C100**: DNF: `C100_table`, `C100_far`, `C100_odd`, `C100_bins`, `C100_lists_refuted`, `C100_fewer_refuted`, `C100_near_refuted`
* **C101**: DNF: `C101_power`, `C101_range`, `C101_plane_wave`, `C101_circle`, `C101_sphere`
* **C102**: DNF: `C102_spectrum`, `C102_sources`, `C102_value`, `C102_normalised`, `C102_normalised_refuted`, `C102_zero_refuted`
* **C103**: DF: `C103_given`, `C103_range`, `C103_hz_refuted`
* **C104**: DNF: `C104_even_odd`, `C104_border`, `C104_unlucky_refuted`, `C104_far_refuted`; DF: `C104_moving`, `C104_separated`, `C104_convex`
* **C105**: DNFC: `C105_sabine`, `C105_sabine_one`, `C105_between`, `C105_eyring_uniform`, `C105_eyring`, `C105_air_refuted`, `C105_eyring_refuted`, `C105_eyring_air_refuted`
* **C106**: DNFC: `C106_gain`, `C106_zeros_after`, `C106_zeros_before`, `C106_rate`
* **C107**: DNFC: `C107_between`, `C107_nonneg`, `C107_exact`, `C107_impulse_refuted`, `C107_last_refuted`, `C107_infinite_refuted`
* **C109**: DNF: `C109_minimal`, `C109_exact`, `C109_scale`, `C109_clip_up`, `C109_clip_down`, `C109_zero_gain_refuted`
* **C110**: DNF: `C110_output`, `C110_rejects`, `C110_background`; DNFC: `C110_iteration`
* **C111**: DF: `C111_determinant`; DNFC: `C111_decreasing`, `C111_best_row`
* **C112**: DNF: `C112_rejects`, `C112_output`, `C112_filters_refuted`; DNFC: `C112_source_step`, `C112_first_iteration`
* **C113**: DNF: `C113_sum`, `C113_sum2`, `C113_mic`, `C113_mic2`, `C113_shares`, `C113_shares2`, `C113_W0_refuted`, `C113_singular_refuted`
* **C115**: DNFC: `C115_gain`, `C115_range`, `C115_scale`, `C115_apply`, `C115_finite`, `C115_transparent`, `C115_silent_refuted`
* **C116**: DNF: `C116_gain`, `C116_apply`, `C116_level`, `C116_quiet`, `C116_inplace_refuted`, `C116_frame_refuted`, `C116_level_refuted`
* **C117**: DNF: `C117_cov`, `C117_psd`, `C117_stream`, `C117_apply`, `C117_rejects`, `C117_alias`, `C117_mute`, `C117_count_refuted`; DF: `C117_filter`
* **C118**: DF: `C118_forward`, `C118_possible`, `C118_full`, `C118_left_right`, `C118_other`, `C118_generate`; DNFC: `C118_loglikelihood`, `C118_alive`, `C118_posterior`, `C118_zeros`, `C118_rows`, `C118_retrain_refuted`
* **C119**: DNFC: `C119_step`, `C119_chain`, `C119_fit`, `C119_terminates`, `C119_rare_refuted`
* **C120**: DNF: `C120_improves`, `C120_monotone`, `C120_tail`, `C120_start`, `C120_phases`, `C120_next`, `C120_fixed_point`, `C120_true_phase`, `C120_one_frame`, `C120_no_overlap`, `C120_silence`, `C120_true_phase_refuted`, `C120_ini_refuted`
* **C108**: DNF: `C108_convolve`, `C108_convolve_shapes`; DNFC: `C108_full_band`, `C108_octave_bands`, `C108_unit_impulses`, `C108_flat_gains`, `C108_octave_directivity_refuted`; D: `C108_octave_mixed`
* **C96**: D: `C96_slice`, `C96_items`, `C96_make`, `C96_optional_refuted`; DF: `C96_directivity_refuted`, `C96_generators_refuted`, `C96_integer_refuted`, `C96_engine_refuted`
* **C121**: DNF: `C121_edm`; –: `C121_label`, `C121_unknown_label`; D: `C121_default_labels`, `C121_one_label_per_point`, `C121_center_unknown`, `C121_correct`; DNFC: `C121_normalize_2d`, `C121_normalize_3d`, `C121_normalize_defined`, `C121_normalize_axis_refuted`, `C121_align`, `C121_align_overwrites`, `C121_align_axis_refuted`, `C121_align_axis_kind`, `C121_doa`; DF: `C121_center`, `C121_flatten`, `C121_flatten_small`
* **C122**: DNF: `C122_mds`, `C122_mds_repeated_refuted`, `C122_square`, `C122_tri_refuted`, `C122_single_point`, `C122_line_search`, `C122_few_points_refuted`; DF: `C122_grid`
* **C114**: DNFC: `C114_fit`, `C114_fit2`; DNF: `C114_finite`, `C114_accelerate`, `C114_normalise`, `C114_normalise2`
* **C123**: DNF: `C123_deconvolve`, `C123_least_squares`, `C123_tdoa_wrap`, `C123_tdoa`, `C123_tdoa_interp`, `C123_tdoa_range`, `C123_sign_refuted`, `C123_last_lag_refuted`, `C123_interp_refuted`, `C123_zero_mean_refuted`, `C123_locate`, `C123_planar`, `C123_planar_refuted`, `C123_equidistant_refuted`; DNFC: `C123_zero_bin_refuted`
* **C124**: DF: `C124_buffer`, `C124_total`, `C124_bands`, `C124_fit`, `C124_errors`, `C124_robust`, `C124_one_tap`
* **C125**: DF: `C125_halves`, `C125_deviation`, `C125_affine`; DNF: `C125_order`, `C125_affine_interval`, `C125_small`, `C125_coverage`, `C125_large`, `C125_sign_refuted`, `C125_boundary_refuted`
* **C126**: DF: `C126_mse`, `C126_snr`, `C126_columns_refuted`, `C126_axis_refuted`; DNFC: `C126_range`, `C126_gain`, `C126_rate_refuted`, `C126_silence_refuted`
* **C64**: DNF: `C64_overlap`, `C64_symmetric`, `C64_bohman`, `C64_range`, `C64_climbs`, `C64_halves`, `C64_mdct_refuted`, `C64_blackman_refuted`, `C64_bart_hann_refuted`, `C64_harris_refuted`, `C64_single_refuted`; DNFC: `C64_gaussian`; DF: `C64_triang_range`, `C64_triang_odd_refuted`, `C64_bart_refuted`
* **C70**: –: `C70_count`, `C70_explicit`; DF: `C70_forgets_refuted`
* **C127**: DNFC: `C127_melfilterbank`, `C127_empty_refuted`
* **C128**: DF: `C128_critical`, `C128_bins`, `C128_binning`, `C128_dct_refuted`, `C128_empty_refuted`, `C128_sum_refuted`
* **C129**: DF: `C129_prony`, `C129_prony_exact`, `C129_shanks`, `C129_truncated_refuted`
* **C130**: DNFC: `C130_magnitude`, `C130_minimum_phase`, `C130_even`, `C130_defined`, `C130_even_refuted`, `C130_nyquist_refuted`
* **C131**: DNF: `C131_ratios`, `C131_max_sinr`, `C131_max_udr`, `C131_order_refuted`, `C131_late_refuted`; DF: `C131_max_udr_filters`
* **C132**: DNF: `C132_complete`, `C132_empty_refuted`; DNFC: `C132_sound`, `C132_weights`
* **C133**: DNFC: `C133_few`, `C133_three`, `C133_circle`, `C133_narrow`, `C133_axes_refuted`, `C133_arc_refuted`
* **C134**: –: `C134_order`; DNF: `C134_value`, `C134_kernel`, `C134_phase_refuted`, `C134_magnitude_refuted`; DNFC: `C134_first_order`
* **C135**: DNF: `C135_linear`, `C135_exact`, `C135_least`, `C135_weights_refuted`
* **C136**: DNFC: `C136_nearest`, `C136_exact`, `C136_orientation`, `C136_ids`, `C136_mic`, `C136_source`, `C136_cache`; DF: `C136_pdf`, `C136_accept`; DNF: `C136_angles`, `C136_rays`, `C136_colatitude_refuted`
* **C137**: DNFC: `C137_uniform`, `C137_samples`, `C137_mode`, `C137_total`, `C137_negative_refuted`
* **C138**: DF: `C138_histogram`, `C138_equal`, `C138_mass_refuted`; DNF: `C138_empty_refuted`; –: `C138_neighbors`; DNFC: `C138_distances`
* **C139**: DNF: `C139_output`, `C139_stationary`, `C139_swap`, `C139_padding_refuted`
* **C140**: DNFC: `C140_output`, `C140_auxiva`, `C140_sparir`, `C140_conjugate`, `C140_silent_refuted`; DNF: `C140_gradient`, `C140_gradient_refuted`; DF: `C140_soft_refuted`
* **C141**: DNF: `C141_anechoic`, `C141_response`, `C141_random_delay`, `C141_snr`, `C141_direct_refuted`, `C141_snr_source_refuted`; DF: `C141_random`, `C141_bbox`; D: `C141_outside`; DNFC: `C141_snr_scale_refuted`
* **C142**: DF: `C142_walls`, `C142_walls_exact`, `C142_unobstructed`, `C142_tolerance_refuted`
* **C143**: DNF: `C143_window`, `C143_linear`, `C143_fade_refuted`; DNFC: `C143_exponential`, `C143_options`, `C143_band`, `C143_tone_refuted`, `C143_fraction_refuted`
* **C144**: DNFC: `C144_wiener`, `C144_undefined`, `C144_plain`, `C144_recover`, `C144_noise_refuted`
* **C146**: DF: `C146_focus`; DNF: `C146_cssm`, `C146_waves`, `C146_dropped_refuted`
* **C147**: DNF: `C147_exact`, `C147_sources`, `C147_bins_refuted`
* **C145**: DNF: `C145_bins`, `C145_rays`, `C145_engine`, `C145_calls`, `C145_short_bin_refuted`; DNFC: `C145_small_room_refuted`
* **C149**: DNF: `C149_engine`, `C149_histograms`, `C149_rir`, `C149_add`, `C149_bins_refuted`, `C149_source_refuted`, `C149_array_refuted`; –: `C149_trees`, `C149_trees_refuted`
* **C148**: DF: `C148_frames`, `C148_expand`, `C148_convolution`; DNF: `C148_visibility`, `C148_search`, `C148_fit`; DNFC: `C148_mapping`, `C148_zero`, `C148_locations`, `C148_cache_refuted`
* **C150**: DNF: `C150_channels`, `C150_one_shot`, `C150_filter_refuted`, `C150_column_refuted`, `C150_short_refuted`
* **C151**: DNFC: `C151_density`, `C151_diagonal`, `C151_prob`, `C151_update`, `C151_step`, `C151_train`, `C151_initial`, `C151_singular_refuted`; DFC: `C151_span`
* **C152**: DNFC: `C152_linear`, `C152_shapes`, `C152_impulse`, `C152_minimum_phase`, `C152_filters`, `C152_leak_refuted`, `C152_polarity_refuted`, `C152_shift`, `C152_early_refuted`; DNF: `C152_between`, `C152_centre`
* **C153**: DNF: `C153_rms`, `C153_normalize_pwr`; DNFC: `C153_dB`, `C153_noisy`, `C153_returns`, `C153_small_offset`, `C153_offset_refuted`, `C153_range_refuted`, `C153_untouched_refuted`
* **C154**: DNFC: `C154_cartesian`, `C154_elevation`, `C154_colatitude`, `C154_refuses`, `C154_upper_refuted`, `C154_open`, `C154_dirpat`; D: `C154_order`
* **C155**: DF: `C155_cleaned`; DNF: `C155_rank`, `C155_visibility`, `C155_image`, `C155_peak`, `C155_raw`, `C155_overlap_refuted`
* **C156**: DNF: `C156_minimax`, `C156_every`, `C156_bound`, `C156_whole`, `C156_mirror`, `C156_none`
* **C157**: DNF: `C157_fewer`, `C157_power`, `C157_rows`, `C157_correlated_refuted`
* **C158**: DNF: `C158_amplitudes`, `C158_update`, `C158_best`, `C158_noise_refuted`
* **C159**: –: `C159_set`, `C159_variable`, `C159_openmp_refuted`, `C159_zero_refuted`
* **C160**: DNFC: `C160_bands`, `C160_table`, `C160_given`, `C160_replicated_refuted`, `C160_example_refuted`
* **C161**: –: `C161_named`, `C161_corners`, `C161_shoebox`, `C161_extruded`, `C161_floor_refuted`
* **C162**: DNF: `C162_amplitudes`, `C162_single`, `C162_update`, `C162_update_refuted`
