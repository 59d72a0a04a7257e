# Formal model of acoular in Rocq — design

Status of each property is in `MANIFEST.json`; this file says what is modelled, how,
what is trusted, and what was found.

## 1. Modelling conventions

* **Values.** Sample values are an abstract type, `Z`/`Q` where only arithmetic identities of a
  ring/field are needed, and Coq's `R` (and pairs of reals for complex numbers) for the frequency
  domain, grids and environments.  Floating-point rounding is idealised: a theorem speaks
  about the exact-arithmetic program, except in `Rounding.v` (C107-C109, and the phase bound of C106), where
  every operation is rounded (relative error u, monotone, exact on integers; round-to-nearest-even is proved an instance).
* **Generators.** A Python generator `result(num)` is modelled by the finite *trace* of one complete
  iteration: the list of yielded blocks plus how it ended (normally, or with an exception of a given
  kind).  A block is a list of rows (one row per sample).  `chunks num s` is the specification:
  the stream `s` cut in blocks of `num` rows, last one possibly shorter, none empty.
* **Loops** become structural recursion over the source's blocks or over the iteration count; `while`
  loops without an obvious measure get explicit fuel with a separate outcome, and the theorems show
  that it never occurs.
* **NumPy assignments** `buf[a:b] = v` are modelled with the NumPy shape rule (equal length, or
  broadcast of a single row, otherwise `ValueError`).
* **Exceptions** are values (`exn`).
* **Histories** (caches, splitter, lazy results, trait caches) are state machines with an event type;
  theorems are invariants by induction over arbitrary event lists.
* **Aliasing** (blocks that are views of a reused buffer, in-place operators) is modelled by explicit
  stores where a property is about it (C25, C26); all other models are value models, i.e. they assume
  that a consumer looks at a block before requesting the next one.
* **External routines** (eigenvalue decomposition, matrix inverse, splines, optimisers, random numbers)
  are universally quantified: a theorem holds for every routine that satisfies the stated equation
  (for instance every orthonormal eigenbasis `eigh` may return).

Every definition in a model file carries a comment with the file and lines in /repo it models.
Files: `theories/<Topic>.v` hold model and proofs; `theories/Props_<Topic>.v` hold the property
theorems with `Print Assumptions` and `Example`s showing that the hypotheses are met by concrete
non-trivial cases.

## 2. Properties: what is modelled and how it is proved

The theorems of a property start with its identifier; `_partial` marks a theorem that covers part of the
statement, `_refuted` one that shows part of the statement false of the model with a witness.

### C01 — TimeSamples.result delivers the data exactly once, in full blocks (proved)

*Code:* sources.py: TimeSamples.result. *Theorems* (`Props_Sources.v`): `C01_time_samples`.

*Model and proof:* The loop of `TimeSamples.result` (slice, yield, advance) by recursion on the remaining rows; equal to `chunks num s`.

### C02 — MaskedTimeSamples.result delivers exactly data[start:stop] on the valid channels (proved)

*Code:* sources.py: MaskedTimeSamples.result, MaskedTimeSamples.channels, MaskedTimeSamples.num_samples. *Theorems* (`Props_Sources.v`): `C02_masked_time_samples`.

*Model and proof:* Python's `slice.indices`, the channel mask and the loop; the rows delivered are characterised by index arithmetic, blocks as in C01.

*Coverage:* At least one channel must be valid; otherwise IndexError (last clause of the theorem).

### C03 — Pipelines are independent of the block size (proved)

*Code:* base.py: Generator.result, InOut, tprocess.py, process.py, calib.py: Calib.result. *Theorems* (`Props_Blocks.v`): `C03_block_size_independence`, `C03_pipeline_meaning`, `C03_channel_mixer_refuses`.

*Model and proof:* A predicate `wf_source` (same rows, cut by `chunks`, for every num) is shown to be preserved by every modelled stage; pipelines are an inductive type with a denotation, by induction on the pipeline.

*Coverage:* Stages modelled: Calib, MaskedTimeOut, ChannelMixer, TimePower, TimeCumAverage, TimeReverse, Filter and subclasses, FiltFiltOctave, Average, Mixer, over any well-behaved source.

### C04 — MaskedTimeOut.result re-blocks exactly stream[start:stop] on the valid channels (proved)

*Code:* tprocess.py: MaskedTimeOut.result. *Theorems* (`Props_Blocks.v`): `C04_masked_time_out`.

*Model and proof:* The state of `MaskedTimeOut.result` (buffer, offset, first-block flag) with NumPy assignment shapes; invariant: buffer = the rows of the interval read so far.

### C05 — Mixer.result is the sample-wise sum of all its sources (proved)

*Code:* tprocess.py: Mixer.result, Mixer.validate_sources. *Theorems* (`Props_Blocks.v`): `C05_mixer`.

*Model and proof:* Lock-step iteration over the generators of all sources; induction over blocks, end of the shortest source, RuntimeError cases.

### C06 — TimeReverse.result is the exact time reversal (proved)

*Code:* tprocess.py: TimeReverse.result. *Theorems* (`Props_Blocks.v`): `C06_time_reverse`.

*Model and proof:* Two buffers and a list of reversed blocks; invariant by induction over the blocks from the end.

*Coverage:* Non-empty streams; an empty source raises IndexError (second clause).

### C07 — Running averages and filters keep their state across block boundaries (proved)

*Code:* tprocess.py: TimeCumAverage.result, Filter.result, TimePower.result, TimeExpAverage. *Theorems* (`Props_Blocks.v`): `C07_time_cum_average`, `C07_filter`, `C07_time_power`.

*Model and proof:* Block maps with carried state (`lfilter`/`sosfilt` as causal state machines, cumulative count); the scan over the concatenation equals the concatenation of the blockwise scans.

### C08 — Average.result yields exactly the means of consecutive groups (partial)

*Code:* process.py: Average.result, Average.num_samples. *Theorems* (`Props_Blocks.v`): `C08_average_partial`, `C08_num_samples_refuted`, `C08_sample_rate`.

*Model and proof:* Regrouping of `chunks (num*n)` in groups of n rows.

*Coverage:* Rows are exactly the group means; the reported num_samples is the real quotient N/n and differs from the row count exactly when n does not divide N (refuted).

### C09 — SamplesBuffer.result delivers exact sliding windows (proved)

*Code:* process.py: SamplesBuffer.result, SamplesBuffer._write_to_buffer, SamplesBuffer.increase_buffer. *Theorems* (`Props_Frames.v`): `C09_windows`, `C09_reblock`, `C09_library_users`, `C09_buffer_too_short`.

*Model and proof:* `SamplesBuffer` with its ring indices; window invariant for arbitrary sequences of window sizes.

*Coverage:* Covers the three configurations used in the library; a buffer not longer than a source block is characterised separately (ValueError, or no output).

### C10 — Power spectra average over exactly the advertised frames (partial)

*Code:* spectra.py: BaseSpectra._get_source_data, PowerSpectra.num_blocks, PowerSpectra._get_csm. *Theorems* (`Props_Frames.v`): `C10_frames`, `C10_frame_count`, `C10_num_blocks_partial`, `C10_num_blocks_refuted`.

*Model and proof:* The buffer loop with exact rational hops; closed form of frame k, count of frames against `num_blocks`.

*Coverage:* The frames are exactly right; num_blocks is the real number ov*N/bs-ov+1 and equals the frame count iff bs divides N*ov, otherwise the cross spectral matrix is scaled too small (refuted, e.g. 10 % for 1000 samples and block size 128).

### C11 — RFFT.result yields one spectrum per frame and nothing else (partial)

*Code:* fprocess.py: RFFT.result. *Theorems* (`Props_Frames.v`): `C11_rfft_partial`, `C11_rfft_refuted`.

*Model and proof:* Grouping of frames into blocks of spectra.

*Coverage:* Holds whenever there is at least one complete frame; with none, num>1 yields an invented zero spectrum (refuted).

### C12 — TimeConvolve.result is the linear convolution of signal and kernel (partial)

*Code:* tprocess.py: TimeConvolve.result, _append_to_fdl, _spectral_sum. *Theorems* (`Props_Fourier.v`): `C12_time_convolve_partial`, `C12_divisible_refuted`, `C12_one_kernel_refuted`, `C12_kernel_tail_ignored`, `C12_long_kernel_refuted`.

*Model and proof:* Overlap-save with the delay line as coded; equality with the direct convolution sum; witnesses where rows are missing.

*Coverage:* True for one kernel per channel, kernel length <= num and (M+L-1) mod num <> 0; otherwise rows are missing, channels silent or the kernel's tail ignored (all refuted with the exact behaviour).

### C13 — FilterBank.result processes streams of any length (partial)

*Code:* tprocess.py: FilterBank.result. *Theorems* (`Props_Blocks.v`): `C13_filter_bank_partial`, `C13_filter_bank_refuted`.

*Model and proof:* Block loop with the fixed-size output buffer; NumPy assignment rule gives the error.

*Coverage:* Holds iff num divides the stream length (or the rest is one row with num=1); otherwise the last block is repeated rows or ValueError (refuted).

### C14 — WriteH5.result records exactly the requested prefix and passes blocks through unchanged (proved)

*Code:* tprocess.py: WriteH5.result, WriteH5.save. *Theorems* (`Props_Collect.v`): `C14_write_h5`, `C14_write_h5_complete`, `C14_write_h5_save`.

*Model and proof:* Append loop with counter; the file is the rows read so far after every step.

### C15 — WriteWAV never clips (proved)

*Code:* tprocess.py: WriteWAV.save. *Theorems* (`Props_Collect.v`): `C15_write_wav`, `C15_truncation`.

*Model and proof:* Scaling by the maximum and truncation to 16 bit integers; inequalities over R.

*Coverage:* Non-silent signals; silent and empty signals are characterised in the last two clauses.

### C16 — The block cache always returns the source's data, whatever happened before (partial)

*Code:* process.py: Cache.result, _write_data_to_cache, _get_data_from_cache, _get_data_from_incomplete_cache. *Theorems* (`Props_Sharing.v`): `C16_partial`, `C16_no_conflict`, `C16_empty_refuted`, `C16_h5py_crash_refuted`.

*Model and proof:* State machine of cache file contents with events (create, append, flush, mark complete, yield, remove) and arbitrary interruption; invariant over histories of reads.

*Coverage:* all histories of complete, abandoned and crashed reads in all modes; refuted for empty streams (UnboundLocalError) and for h5py crashes between resize and write (rows of zeros delivered later)

### C17 — SampleSplitter gives every registered consumer the same complete stream (partial)

*Code:* process.py: SampleSplitter.result, _fill_block_buffers, register_object, remove_object. *Theorems* (`Props_Sharing.v`): `C17_order_partial`, `C17_complete_partial`, `C17_overflow_lag`, `C17_terminates`, `C17_unregistered`, `C17_size_refuted`, `C17_dict_refuted`, `C17_restart_refuted`, `C17_spurious_refuted`, `C17_stuck_refuted`, `C17_late_registration_refuted`, `C17_threads_refuted`.

*Model and proof:* Small-step machine with deques, registered objects and the lock; invariants over arbitrary schedules of generators; witnesses for every situation in which blocks get lost or readers hang.

*Coverage:* all schedules of next() calls with static registration and one start of the source; refuted when the per-object buffer size differs from buffer_size, when buffer_size is a dictionary, when another consumer restarts the source, for late registration and for interleaved threads; the overflow error may be spurious and is permanent

### C18 — SourceMixer.result is the weighted sum of its sources (proved)

*Code:* sources.py: SourceMixer.result, SourceMixer.validate_sources. *Theorems* (`Props_Blocks.v`): `C18_source_mixer`.

*Model and proof:* As C05, with weights.

### C19 — UncorrelatedNoiseSource delivers exactly num_samples rows in full blocks (proved)

*Code:* sources.py: UncorrelatedNoiseSource.result. *Theorems* (`Props_Sources.v`): `C19_uncorrelated_noise`.

*Model and proof:* Noise generators as functions of seed and index; loop = `chunks`.

### C20 — PointSource.result delivers exactly num_samples rows with the right delays (partial)

*Code:* sources.py: PointSource.result, _fill_mic_signal_block. *Theorems* (`Props_PointSources.v`): `C20_point_source_partial`, `C20_rounding`, `C20_late_start_refuted`, `C20_point_source_refuted`.

*Model and proof:* Index arithmetic of `_fill_mic_signal_block` with rounding and numba's unchecked reads (a heap beyond the array); rows against the ideal delayed signal.

*Coverage:* Exact when the recording starts before the wave front arrives; later starts read outside the signal array and, with zero pre-padding, yield extra blocks (refuted). Rounding before the start of the signal is off by up to 3/2 up-sampled values.

### C21 — Moving, dipole and line sources never yield an empty block (partial)

*Code:* sources.py: MovingPointSource.result, SphericalHarmonicSource.result, PointSourceDipole.result, LineSource.result. *Theorems* (`Props_PointSources.v`): `C21_checked_flush`, `C21_always_flush_partial`, `C21_empty_block_refuted`.

*Model and proof:* Flush loops of the four source classes against `chunks`.

*Coverage:* True for MovingPointSource and SphericalHarmonicSource; the dipole and line sources add an empty block exactly when num divides the number of rows (refuted).

### C22 — Reading a source twice gives the same samples (partial)

*Code:* sources.py: LineSource.result, MovingLineSource.result. *Theorems* (`Props_PointSources.v`): `C22_line_source_partial`, `C22_line_source_compounding`, `C22_line_source_refuted`, `C22_strengths_refuted`.

*Model and proof:* The mutable signal object is explicit: rms is multiplied in place for every monopole.

*Coverage:* True for unit strengths; in general strengths compound over the monopoles and over readings (refuted, with the exact law).

### C23 — GenericSignalGenerator repeats or zero-pads its source exactly (proved)

*Code:* signals.py: GenericSignalGenerator.signal. *Theorems* (`Props_Collect.v`): `C23_generic_signal`.

*Model and proof:* Tiling of the first channel; `numpy.tile`, truncation, zero padding.

### C24 — return_result collects exactly the first nmax samples (proved)

*Code:* tools/helpers.py: return_result. *Theorems* (`Props_Collect.v`): `C24_return_result`.

*Model and proof:* Concatenation and truncation.

### C25 — Processing blocks do not modify their source's data (partial)

*Code:* tprocess.py: Mixer.result, sources.py: SourceMixer.result, TimeSamples.result, tbeamform.py: BeamformerTime.result. *Theorems* (`Props_State.v`): `C25_partial`, `C25_effect`, `C25_mixer_refuted`, `C25_sourcemixer_refuted`.

*Model and proof:* Explicit heap with views; in-place `+=`; frame lemmas for the arrays not touched.

*Coverage:* False for TimeSamples without calibration: the first source's array is overwritten by the mixed signal (exact effect proved); true when the first source delivers new arrays. BeamformerTime writes to its own buffer only (Buffer.v), not restated here.

### C26 — A yielded block keeps its contents while the generator continues (partial)

*Code:* tprocess.py: MaskedTimeOut.result, TimeReverse.result, FilterBank.result, sources.py: PointSource.result, fprocess.py: RFFT.result. *Theorems* (`Props_State.v`): `C26_partial`, `C26_kept`, `C26_timereverse_refuted`.

*Model and proof:* Explicit store for reused buffers; generators interleaved with their consumers.

*Coverage:* False for the generators that reuse a buffer; exact characterisation for full blocks; a consumer that looks at each block at once sees the stream.

### C27 — Different configurations have different digests (partial)

*Code:* internal.py: digest, ldigest, sources.py: MaskedTimeSamples.digest, TimeSamples.digest. *Theorems* (`Props_State.v`): `C27_partial`, `C27_ldigest`, `C27_int_refuted`, `C27_float_refuted`, `C27_array_refuted`.

*Model and proof:* Strings concatenated without separators; `str` of arrays as an abridging function; witnesses of collisions; injectivity where one field varies.

*Coverage:* The hashed message has no separators and prints large arrays abridged, so different settings can collide; injective with at most one setting of variable length, and for lists of digests.

### C28 — Derived properties are always up to date (partial)

*Code:* grids.py: RectGrid._get_pos, spectra.py: PowerSpectra.freq_range, ind_low, ind_high, sources.py: TimeSamples.digest, environments.py: GeneralFlowEnvironment._r, microphones.py: MicGeom.pos. *Theorems* (`Props_State.v`): `C28_partial`, `C28_necessary`, `C28_instances`, `C28_flow_partial`, `C28_rectgrid_refuted`, `C28_rectgrid_partial`, `C28_na_partial`, `C28_na_replaced`, `C28_ind_low_refuted`, `C28_na_refuted`, `C28_flow_refuted`.

*Model and proof:* Trait cache machine: cached value, declared dependencies, actual reads. Freshness holds for every history if the declared dependencies cover the reads; concrete classes that violate this are refuted with histories.

*Coverage:* Holds exactly for properties whose depends_on covers what they use; RectGrid.pos (as written), PowerSpectra.ind_low, BeamformerEig.na and GeneralFlowEnvironment's table do not.

### C29 — The HDF5 cache opens each file once and closes it when the last user leaves (partial)

*Code:* h5cache.py: HDF5Cache.get_cache_file, _decrease_file_reference_counter. *Theorems* (`Props_Sharing.v`): `C29_partial`, `C29_exact_partial`, `C29_switch_refuted`, `C29_open_refuted`, `C29_count_refuted`.

*Model and proof:* Registry of open files with reference counts, busy flag; invariant over histories.

*Coverage:* holds while every object keeps to one file; switching the file raises KeyError and leaves the registry busy for ever; counter not decreased for dead objects

### C30 — The cross spectral matrix is Hermitian and positive semidefinite (proved)

*Code:* fastFuncs.py: calcCSM, spectra.py: PowerSpectra.calc_csm. *Theorems* (`Props_Beamform.v`): `C30_csm`.

*Model and proof:* `calcCSM` on index functions, fold over the frames, mirrored triangle.

*Coverage:* The divisor of the average is num_blocks, which C10 shows to differ from the number of frames when block_size does not divide the record; all other parts are as stated.

### C31 — The frequency-domain beamformer evaluates the quadratic form of the CSM (proved)

*Code:* fastFuncs.py: _freqBeamformer_FullCSM, beamformerFreq. *Theorems* (`Props_Beamform.v`): `C31_quadratic_form`, `C31_data_nonnegative`.

*Model and proof:* Kernels with their triangle loops against the quadratic form; real part and non-negativity by algebra of finite sums.

### C32 — Diagonal removal makes the map independent of the CSM diagonal (proved)

*Code:* fastFuncs.py: _freqBeamformer_FullCSM, fbeamform.py: BeamformerBase._calc, sig_loss_norm. *Theorems* (`Props_Beamform.v`): `C32_diagonal_removal`, `C32_value`.

*Model and proof:* As C31 with the diagonal removed.

### C33 — The eigenvalue beamformer agrees with the full-matrix beamformer (partial)

*Code:* fastFuncs.py: _freqBeamformer_EigValues, fbeamform.py: BeamformerEig, BeamformerFunctional. *Theorems* (`Props_Beamform.v`): `C33_kernels`, `C33_components`, `C33_components_rdiag_partial`, `C33_components_rdiag_refuted`, `C33_functional`.

*Model and proof:* Spectral decomposition (any orthonormal eigenbasis) inserted in the quadratic form.

*Coverage:* All as stated without diagonal removal; with it each component map is clipped on its own, so the sum is an upper bound only (refuted for equality).

### C34 — Fast steering path and explicit steering vectors agree (proved)

*Code:* fastFuncs.py, fbeamform.py: SteeringVector.steer_vector, transfer, _beamformer_params. *Theorems* (`Props_Beamform.v`): `C34_fast_path`.

*Model and proof:* The precalculated path against the direct path, normalisation factors included.

### C35 — A single source is mapped with its true level or at its true location, as the steering type promises (proved)

*Code:* fastFuncs.py: _freqBeamformer_FullCSM, _psf_*, fbeamform.py: SteeringVector. *Theorems* (`Props_Beamform.v`): `C35_level`, `C35_location`, `C35_level_rdiag`.

*Model and proof:* Cauchy–Schwarz equality cases for the four steering formulations.

### C36 — The point spread function is the map of a unit source, independent of the calculation mode (partial)

*Code:* fbeamform.py: PointSpreadFunction.calc_psf, _get_psf, fastFuncs.py: calcPointSpreadFunction. *Theorems* (`Props_Beamform.v`): `C36_kernel`, `C36_custom`, `C36_modes_partial`, `C36_modes_refuted`, `C36_cached_reads_refuted`.

*Model and proof:* int8 flags with bitwise `invert` and Python's negative indices, cache states, all modes.

*Coverage:* The kernels and the mode 'full' are right; in the modes 'single' (default) and 'block' numpy.invert of an int8 flag gives -1/-2, so only the last column (and later the one before it) is ever calculated (refuted, for all index sets of two or more).

### C37 — DAMAS yields non-negative maps and keeps an exact solution (proved)

*Code:* fastFuncs.py: damasSolverGaussSeidel, fbeamform.py: BeamformerDamas._calc. *Theorems* (`Props_Results.v`): `C37_nonnegative`, `C37_fixed_point`, `C37_convergence`, `C37_unit_diagonal`, `C37_nonunit_diagonal`.

*Model and proof:* Gauss–Seidel sweep on functions; non-negativity, fixed points, convergence in the maximum norm for diagonally dominant systems.

*Coverage:* Also convergence under diagonal dominance; the diagonal of the PSF is one for 'true level' and 'inverse' only, for the others the solved system is a different one.

### C38 — CLEAN conserves the residual and terminates (proved)

*Code:* fbeamform.py: BeamformerClean._calc. *Theorems* (`Props_Results.v`): `C38_clean`, `C38_decreasing`.

*Model and proof:* Loop with fuel; invariant clean∗psf + dirty = original map; strict decrease of the l1 norm.

### C39 — CLEAN-SC keeps map and CSM consistent (proved)

*Code:* fbeamform.py: BeamformerCleansc._calc. *Theorems* (`Props_Results.v`): `C39_consistent`, `C39_result`.

*Model and proof:* Loop with state (cleaned CSM, component vectors); the invariants say that the extracted components plus the rest give the CSM.

*Coverage:* Over the reals: the NaN that a zero maximum produces (0/0) is not modelled.

### C40 — Beamforming results do not depend on the order of access (partial)

*Code:* fbeamform.py: LazyBfResult.__getitem__, BeamformerBase._get_result, _calc, BeamformerOrth._calc. *Theorems* (`Props_Results.v`): `C40_accesses_partial`, `C40_last_index_refuted`, `C40_interrupted_refuted`.

*Model and proof:* Machine with flags per frequency and events (access, interrupt); values independent of the history.

*Coverage:* True for all sequences of accesses without the index -1; result[-1] triggers no calculation and returns zeros (refuted). BeamformerOrth repeats additions after an interrupted calculation (refuted).

### C41 — Band synthesis partitions the spectrum (proved)

*Code:* fbeamform.py: BeamformerBase.synthetic, tools/helpers.py: synthetic. *Theorems* (`Props_Results.v`): `C41_band`, `C41_adjacent`, `C41_line`, `C41_helper`.

*Model and proof:* `searchsorted` on sorted lists; band limits; sums over half-open intervals.

### C42 — Sector integration sums exactly the points inside the sector (partial)

*Code:* fbeamform.py: BeamformerBase.integrate, integrate, grids.py: Grid.subdomain. *Theorems* (`Props_Results.v`): `C42_integrate_partial`, `C42_disjoint`, `C42_fresh_refuted`.

*Model and proof:* Masks and sums of maps.

*Coverage:* True once the result has been read; on a fresh object the method returns an empty array (refuted).

### C43 — RectGrid.index returns a valid index of the nearest grid point (partial)

*Code:* grids.py: RectGrid.index, RectGrid._get_nxsteps, RectGrid._get_pos, RectGrid3D.index. *Theorems* (`Props_Grids.v`): `C43_index_partial`, `C43_index3_partial`, `C43_any_extent`, `C43_own_point`, `C43_nearest_refuted`, `C43_bounds_refuted`.

*Model and proof:* Integer rounding on real coordinates; nearest point in the maximum norm of index coordinates.

*Coverage:* True if the extents are multiples of the increment; otherwise another point can be nearer, or the index can be one past the end (refuted). For every extent the result is at most one spacing off.

### C44 — Sectors contain exactly the points they describe (partial)

*Code:* grids.py: RectSector.contains, RectSector3D.contains, CircSector.contains, PolySector.contains, ConvexSector.contains, MultiSector.contains. *Theorems* (`Props_Grids.v`, `Props_Jordan.v`): `C44_rect`, `C44_circ`, `C44_limits_order`, `C44_rect3d_partial`, `C44_multi`, `C44_subdomain`, `C44_poly_convex_partial`, `C44_poly_simple_partial`, `C44_poly_nearest_partial`, `C44_rect3d_nearest_refuted`, `C44_poly_nearest_refuted`, `C44_convex_border_refuted`.

*Model and proof:* Each `contains` as a predicate on real coordinates; subdomain index lists; default nearest.

*Coverage:* RectSector, CircSector, MultiSector: full. RectSector3D ignores z for the nearest point; PolySector and ConvexSector mark the first or second point; ConvexSector without border loses a whole simplex (refuted). PolySector's region is proved for simple polygons.

### C45 — Uniform flow distances solve the convected propagation equation (proved)

*Code:* environments.py: UniformFlowEnvironment._r, Environment._r, dist_mat. *Theorems* (`Props_Environ.v`): `C45_wavefront`, `C45_rest`, `C45_reversed_flow`.

*Model and proof:* Explicit solution of the quadratic for the travel time in uniform flow.

*Coverage:* Positions over the reals; g = m (0/0) excluded.

### C46 — Flow fields report the true Jacobian (partial)

*Code:* environments.py: RotatingFlow.v, OpenJet.v, SlotJet.v. *Theorems* (`Props_Environ.v`): `C46_rotating`, `C46_openjet_partial`, `C46_openjet_crease`, `C46_slotjet_partial`, `C46_exit_plane_refuted`.

*Model and proof:* Velocity fields and Jacobians as coded; `derivable_pt_lim` in every direction.

*Coverage:* True for RotatingFlow everywhere and for both jets wherever a Jacobian is reported and the field is differentiable; in the nozzle exit plane outside the core the reported Jacobian is NaN although the field is differentiable.

### C47 — Cylindrical and Cartesian conversions are inverse to each other (partial)

*Code:* environments.py: cartToCyl, cylToCart. *Theorems* (`Props_Environ.v`, `Props_Idw.v`): `C47_round_trip_refuted`, `C47_round_trip_partial`, `C47_cyl_coordinates`, `C47_matrix_partial`, `C47_matrix_refuted`.

*Model and proof:* Cylinder coordinates with `arctan2` built from the library's atan.

*Coverage:* False: cylToCart exchanges x and y. The exact effect of the round trip is proved, also with the optional matrix Q; cartToCyl alone is right. With Q given to cylToCart too the result is not even the exchanged point, because Q is applied to the triple (phi, r, z).

### C48 — Ray directions are unit vectors around the requested direction (partial)

*Code:* environments.py: spiral_sphere. *Theorems* (`Props_Environ.v`): `C48_rays_partial`, `C48_near_pole_partial`, `C48_full_sphere_refuted`.

*Model and proof:* Spiral of unit vectors; rotation to the given axis.

*Coverage:* Proved for solid angles below 4 pi (with the rays inside the requested cap); at 4 pi the last ray is NaN; directions within 1e-10 of (0,0,-1) are met up to 1e-10.

### C49 — Metric evaluation uses non-overlapping sectors and leaves the data unchanged (partial)

*Code:* tools/metrics.py: MetricEvaluator._get_sector_radii, _integrate_sectors. *Theorems* (`Props_Metrics.v`): `C49_disjoint_partial`, `C49_data_partial`, `C49_values_partial`, `C49_first_target`, `C49_data_refuted`, `C49_inverse_refuted`, `C49_rectgrid_refuted`, `C49_height_refuted`, `C49_border_refuted`.

*Model and proof:* Radii of the evaluation circles from pairwise distances; sums over circle sectors with data modified in place.

*Coverage:* Circles of targets in the same height are disjoint without border; with the default border the midpoint counts twice, and targets that differ in height only overlap completely. With multi_assignment all orders of calls agree; and the three metrics are the level differences of the sector powers; without it the data are overwritten (so the inverse level error compares with what is left), and a RectGrid raises IndexError.

### C50 — BeamformerTime is a block-size independent delay-and-sum (partial)

*Code:* tbeamform.py: BeamformerTime.result, tfastfuncs.py: _delayandsum4. *Theorems* (`Props_TimeBeam.v`): `C50_output_partial`, `C50_blocks`, `C50_end`, `C50_end_refuted`, `C50_weights_refuted`.

*Model and proof:* The generator on top of the sample buffer (C09) with delays and `_delayandsum`; ValueError of the final re-shape of the buffer.

*Coverage:* Without weights the rows yielded are the delay-and-sum rows for every block size. False as stated: after the last row a ValueError is raised unless the largest delay fits the last block (C50_end gives the exact condition), and spatial weights are multiplied repeatedly into the overlap of the buffer windows.

### C51 — Time-domain delay kernels never read outside their input (partial)

*Code:* tfastfuncs.py: _delayandsum4, tbeamform.py: BeamformerTime.result. *Theorems* (`Props_TimeBeam.v`): `C51_static_partial`, `C51_traj_partial`, `C51_channels_refuted`, `C51_supersonic_refuted`.

*Model and proof:* Bounds of every index read by the kernels; Lipschitz argument for moving grids.

*Coverage:* Reads stay inside the window when the source has as many channels as microphones and, for moving grids, when the grid is slower than sound (proved without weights). Refuted otherwise: channel count is never checked; supersonic approach makes the row count of the last block wrong.

### C52 — IntegratorSectorTime is independent of the block size (partial)

*Code:* tbeamform.py: IntegratorSectorTime.result. *Theorems* (`Props_TimeBeam.v`): `C52_plain_partial`, `C52_clip_refuted`, `C52_empty_block_refuted`.

*Model and proof:* Per-block clipping and summation.

*Coverage:* True when nothing is clipped. False in general: the clipping threshold is relative to the block maximum; an empty block (last block of BeamformerTime) raises ValueError.

### C53 — Trajectory.traj covers exactly the requested interval (partial)

*Code:* trajectory.py: Trajectory.traj. *Theorems* (`Props_State.v`): `C53_partial`, `C53_interval`, `C53_zero_refuted`.

*Model and proof:* Iteration over a spline in float steps idealised as reals; count and spacing of the samples.

*Coverage:* t_end = 0.0 counts as not given.

### C54 — Calib scales each channel by its factor or refuses (proved)

*Code:* calib.py: Calib.result, Calib.__validate_data. *Theorems* (`Props_Sources.v`): `C54_calib`.

*Model and proof:* Row-wise multiplication; channel count checks.

### C55 — MicGeom removes exactly the invalid channels (proved)

*Code:* microphones.py: MicGeom.pos, num_mics. *Theorems* (`Props_Sources.v`): `C55_micgeom`.

*Model and proof:* Index filtering of invalid channels, order and count.

### C56 — Deprecated names are faithful aliases (proved)

*Code:* deprecation.py: deprecated_alias. *Theorems* (`Props_State.v`): `C56`, `C56_missing`.

*Model and proof:* Attribute access through deprecated aliases as a recursive lookup with fuel; simulation with plain attributes.

### C57 — Imported cross spectral matrices are identified by their contents (partial)

*Code:* spectra.py: PowerSpectraImport._set_csm. *Theorems* (`Props_State.v`): `C57_partial`, `C57_lag`, `C57_eva_partial`, `C57_refuted`, `C57_eva_refuted`.

*Model and proof:* Digest and cached matrix as a machine over assignments.

*Coverage:* The checksum is taken from the matrix before the assignment.

### C58 — Pink noise synthesis never fails on array shapes (proved)

*Code:* signals.py: PNoiseGenerator.signal. *Theorems* (`Props_State.v`): `C58`, `C58_depth`.

*Model and proof:* Voss–McCartney noise as a function of the white noise table; rows and NaN case.

*Coverage:* Value formula included; depth <= -2 gives nan (square root of a negative number, total in the model).

### C59 — Sound pressure levels are monotone and floored (proved)

*Code:* fbeamform.py: L_p. *Theorems* (`Props_Results.v`): `C59_levels`.

*Model and proof:* Levels with the clipping value −350 dB.

### C60 — Component selection is always valid (proved)

*Code:* fbeamform.py: BeamformerEig._get_na, BeamformerOrth._calc. *Theorems* (`Props_Results.v`): `C60_component`, `C60_orth_sum`.

*Model and proof:* `component` and `BeamformerOrth` sums of component maps.

### C61 — RFFT.num_samples is the number of spectra delivered (partial)

*Code:* fprocess.py: RFFT.num_samples, RFFT.result, spectra.py: BaseSpectra._get_source_data. *Theorems* (`Props_Frames.v`): `C61_rfft_num_samples_partial`, `C61_rfft_num_samples_refuted`.

*Model and proof:* Quotients reported against the frame count of C10.

*Coverage:* True without overlap, false with overlap for every source of at least two blocks.

### C62 — Moving sources use the retarded time (proved)

*Code:* sources.py: MovingPointSource.result, MovingPointSourceDipole.get_emission_time, MovingLineSource.get_emission_time. *Theorems* (`Props_PointSources.v`): `C62_emission_time`.

*Model and proof:* The Newton loop with its stop criterion, any trajectory; residual bound on exit.

### C63 — A moving source at rest is the fixed source (partial)

*Code:* sources.py: MovingPointSource.result, PointSource.result. *Theorems* (`Props_PointSources.v`): `C63_at_rest_partial`, `C63_start_time_refuted`.

*Model and proof:* Index formula of MovingPointSource with a constant trajectory against C20.

*Coverage:* True for start = 0; otherwise start is counted twice (refuted).

### C64 — IRFFT inverts RFFT (partial)

*Code:* fprocess.py: RFFT.result, RFFT._scale, IRFFT.result, process.py: SamplesBuffer. *Theorems* (`Props_Fourier.v`): `C64_irfft_of_rfft`, `C64_window`, `C64_energy_scaling_refuted`.

*Model and proof:* DFT and inverse DFT on functions over R; orthogonality of roots of unity.

*Coverage:* True as stated for scaling 'none'; the other scalings double the inner frequencies, which IRFFT does not undo (refuted).

### C65 — Power spectra preserve the signal power (partial)

*Code:* fprocess.py: AutoPowerSpectra._get_scaling_value, AutoPowerSpectra.result, RFFT._scale. *Theorems* (`Props_Fourier.v`): `C65_auto_power_partial`, `C65_psd_refuted`.

*Model and proof:* Parseval's identity with the scalings as coded.

*Coverage:* The power is the mean square plus the squared mean plus the squared alternating mean (bins 0 and Nyquist doubled); the 'psd' scaling is wrong by the factor fs^2 (refuted).

### C66 — Polygon.is_inside is the signed distance to the polygon (partial)

*Code:* grids.py: Polygon.__init__, Polygon.is_inside. *Theorems* (`Props_Grids.v`, `Props_Jordan.v`): `C66_distance`, `C66_simple`, `C66_joined`, `C66_far`, `C66_sign_kept`, `C66_convex_partial`, `C66_duplicate_vertex_refuted`, `C66_crossing_refuted`.

*Model and proof:* Vertices and edges loop of `Polygon.is_inside`; distance to segments. Sign for simple polygons: `Jordan.v` (the signed number of crossings is locally constant off the sides, jumps by one across a side, and is the same to the left of all sides, corner by corner), `Orient.v` (an area that is not negative puts the inside to the left, by integrating the crossings over all heights), `Simple.v` (along the segment to the nearest boundary point the crossing number does not change, so the code's area test tells it).

*Coverage:* Distance for every polygon with distinct neighbouring vertices; distance and sign for every simple polygon, convex or not, in either orientation, inside being an odd number of crossed sides, which is also proved constant along polylines that avoid the boundary and false far away. A vertex given twice makes outside points inside, and a polygon that crosses itself gets a negative sign in one of its lobes (refuted).

### C67 — BeamformerTimeTraj is delay-and-sum towards the moving grid (partial)

*Code:* tbeamform.py:356-494, tfastfuncs.py:83-120. *Theorems* (`Props_TimeBeam.v`): `C67_output_partial`, `C67_blocks_refuted`, `C67_trajectory_refuted`.

*Model and proof:* Generator with varying window sizes on top of C09; reachability of rows.

*Coverage:* For grids slower than sound and no weights the output is a prefix of the delay-and-sum rows, complete in all blocks up to the first that with its largest delay does not fit. False as stated: the prefix depends on num; a trajectory that ends inside the last block raises RuntimeError.

### C68 — The moving grid is a rigid, right-handed copy of the grid (partial)

*Code:* tbeamform.py:305-336. *Theorems* (`Props_TimeBeam.v`): `C68_rigid_partial`, `C68_parallel_refuted`.

*Model and proof:* Moving frame by cross products; isometry.

*Coverage:* True unless rvec is parallel to the velocity, where the positions are NaN.

### C69 — Trigger positions are the samples that trigger (partial)

*Code:* tprocess.py:310-506. *Theorems* (`Props_Trigger.v`): `C69_dirac`, `C69_candidates`, `C69_channels`, `C69_largest_kept`, `C69_few`, `C69_rect_partial`, `C69_rect_refuted`, `C69_warning_refuted`, `C69_warning_partial`, `C69_guess_offset`, `C69_guess_refuted`.

*Model and proof:* Block loop with carried last sample, threshold comparison, thinning loop with fuel (terminates); independent description of the peaks kept.

*Coverage:* True for 'dirac'. False as stated: 'rect' reports edges of the first 2048 samples one sample early (exact positions proved); the warning about uneven revolutions raises AttributeError for sources without start; the guessed threshold ignores a signal offset. hunk_length between 0 and 1, one real number per sample.

### C70 — AngleTracker reports the true angle and speed (partial)

*Code:* tprocess.py:508-660. *Theorems* (`Props_Tracker.v`): `C70_constant_partial`, `C70_average`, `C70_few`, `C70_rpm_refuted`, `C70_angle_refuted`, `C70_speedup_refuted`.

*Model and proof:* Spline as any function that reproduces straight lines; Python slices and indices of peaks; uniform pulses.

*Coverage:* Proved for constant speed and one trigger per revolution, for every spline routine that reproduces straight lines. False otherwise: with several triggers per revolution rpm counts triggers and the angle is only right modulo 2 pi / trigger_per_revo; a change of speed makes the lookup run out of the recorded triggers (ValueError).

### C71 — Virtual rotation of a ring array interpolates along the circle (partial)

*Code:* tprocess.py:663-1018, tprocess.py:1213-1263. *Theorems* (`Props_Rotation.v`): `C71_rotation`, `C71_everywhere`, `C71_steady_field`, `C71_identity_partial`, `C71_Q_refuted`.

*Model and proof:* Sorting, periodic linear interpolation and angle accumulation across blocks.

*Coverage:* Array dimensions '1D' and 'ring' with method 'linear' and constant rotation; inverse distance weighting is C123; the other methods (splines, Delaunay meshes, radial basis functions) are not modelled. False for Q different from the identity, which is ignored for the virtual microphones.

### C72 — Time-domain steering matches the frequency domain and keeps the level of a monopole (proved)

*Code:* tfastfuncs.py:132-207, tbeamform.py:126-232, fbeamform.py:165-173, fbeamform.py:258-277. *Theorems* (`Props_TimeSteer.v`): `C72_amplitudes`, `C72_monopole`, `C72_squares`.

*Model and proof:* The delay-and-sum rows of C50 for a monopole with delays of whole samples.

*Coverage:* Delays of a whole number of samples at the grid point of the source, as stated; spatial weights off.

### C73 — Capon maps never exceed conventional maps and have a known level at a source (partial)

*Code:* fbeamform.py:782-834, fastFuncs.py:236-330, fbeamform.py:258-277. *Theorems* (`Props_Subspace.v`): `C73_bound_partial`, `C73_source`, `C73_true_level_refuted`.

*Model and proof:* Sherman–Morrison form for the level, Cauchy–Schwarz for the bound; inverse as any matrix satisfying the equation.

*Coverage:* Bound and level formula as stated. The last sentence is false: the normalisation is that of 'classic', so 'true level' is wrong by (S/N)^2 (refuted). The inverse matrix is any matrix satisfying the inverse equation.

### C74 — MUSIC maps are scaled to 4e-10 and do not depend on the source strengths (partial)

*Code:* fbeamform.py:902-960, fastFuncs.py:334-430, spectra.py:430-520. *Theorems* (`Props_Subspace.v`): `C74_scale`, `C74_strengths`, `C74_position`, `C74_peak_refuted`, `C74_noise_free_refuted`.

*Model and proof:* Noise subspace as the orthogonal complement of the sources; any eigenbasis; dimension count by linear independence.

*Coverage:* Scale where the denominator does not vanish, independence of powers, and zero denominator at the sources as stated. There is no peak in exact arithmetic: a vanishing denominator has no finite value and sets the rest of the map to zero; without noise the whole map is 0/0.

### C75 — Functional beamforming: larger gamma never raises the map and keeps the level of a source (proved)

*Code:* fbeamform.py:689-780, fastFuncs.py:334-430. *Theorems* (`Props_Subspace.v`): `C75_decreasing`, `C75_source`.

*Model and proof:* Jensen's inequality for powers by tangent lines.

*Coverage:* Real gamma; power of a non-negative base.

### C76 — Covariance matrix fitting solves the equations of the cross spectral matrix (partial)

*Code:* fbeamform.py:1640-1895. *Theorems* (`Props_CsmFit.v`): `C76_equations`, `C76_cost`, `C76_gradient`, `C76_optimum`, `C76_exact_partial`, `C76_nnls_refuted`, `C76_distance_refuted`.

*Model and proof:* Packed real system over explicit row lists; sums over triangles against sums over the matrix; quadratic expansion.

*Coverage:* Equations, cost, gradient and global optimality as stated. False for 'NNLS': scikit-learn's LinearRegression fits an intercept that is thrown away, so the result is not the non-negative least squares solution unless the model is exact; that the diagonal has double weight makes the minimum differ from that of the Frobenius distance. The optimisers themselves are not modelled.

### C77 — SODIX: cost, gradient and independence of the order of requests (partial)

*Code:* fbeamform.py:1895-2055, fbeamform.py:412-449. *Theorems* (`Props_CsmFit.v`): `C77_gradient`, `C77_cost`, `C77_order`, `C77_index0_refuted`.

*Model and proof:* Quartic expansion of the cost along a line; loop over frequencies as a fold, invariant: calculated = {1..M} with chained values.

*Coverage:* Cost, gradient and order independence as stated, for any optimiser that is a function of matrix and initial guess. The last sentence is false: index 0 is never calculated.

### C78 — CLEAN in the time domain (partial)

*Code:* tbeamform.py:126-232, tbeamform.py:552-645. *Theorems* (`Props_Cleant.v`): `C78_blocks_partial`, `C78_decomposition`, `C78_one_point`, `C78_squares`, `C78_block_size_refuted`, `C78_negative_refuted`.

*Model and proof:* `Cleant.v`: one window as a function of row and channel, the iteration as a state machine (residual, Gamma, Gamma_autopow), `polyline` for numpy.interp, the loop over windows of Das.v. Induction over the accepted iterations; for one point the residual is shown to be (1-damp)^j of the window; witnesses by evaluation.

*Coverage:* Decomposition, strict decrease, the one-point formula and the squares without diagonal removal as stated. False: the result depends on the block size, and with r_diag BeamformerCleantSq can be negative because the difference is not clipped and only the autopower of the last iteration is subtracted.

### C79 — Equal digests mean equal data (partial)

*Code:* internal.py:8-25, process.py:255-379, sources.py:1621-1707, calib.py:101-173, sources.py:975-990, sources.py:1111-1125, sources.py:1376-1390, sources.py:1735-1750. *Theorems* (`Props_Cover.v`): `C79_cache`, `C79_covered`, `C79_digest`, `C79_gaps`, `C79_line_source_refuted`, `C79_calib_refuted`.

*Model and proof:* `Cover.v`: table of the attributes hashed and read by 60 classes (by hand), one cache file as a map from digests to the nodes of `Cache.v`, LineSource and Calib objects in front of the models of `PointSources.v` and `Sources.v`. Invariant over all read histories of all objects; the converse by reading one object and then the other.

*Coverage:* A shared cache file is right exactly when equal digests mean equal streams, and the digest decides the result exactly when no attribute read is missing from it. False of 12 of the 60 classes tabulated; shown with the model of LineSource (num_sources, length not hashed) and of Calib (invalid_channels not hashed, wrong data served by Cache). The table of attributes was taken from the source by hand.

### C80 — PointSourceDipole radiates with a cos(theta)/r directivity (partial)

*Code:* sources.py:1210-1350. *Theorems* (`Props_Dipole.v`): `C80_rows_partial`, `C80_reversed`, `C80_plane`, `C80_directivity_partial`, `C80_jump`, `C80_jump_refuted`.

*Model and proof:* `Dipole.v`: geometry with vectors of `Environ.v`, row loop of `PointSources.v` with any environment's distances. Directivity from r2^2-r1^2 = 4 e.x and |r_i - r| <= d/2 (Cauchy-Schwarz); the jump by an exact decomposition and a witness.

*Coverage:* Rows, sign, plane and (when both poles round to the same value of the signal) directivity as stated. False: when the delays of the poles round to different values, the difference divided by the distance of the poles (1e-5 |direction| c/fs) is added, C80_jump. A last empty block is yielded when num divides the number of samples.

### C81 — MovingPointSourceDipole is a dipole moving along its trajectory (partial)

*Code:* sources.py:1353-1580. *Theorems* (`Props_Dipole.v`): `C81_at_rest_partial`, `C81_blocks`, `C81_reversed`, `C81_conv_amp_refuted`, `C81_axis_refuted`, `C81_silent_refuted`, `C81_order_refuted`.

*Model and proof:* `Dipole.v`: Newton iteration of `PointSources.v` with the distances of any trajectory; rotation of the axis with cross products. conv_amp cancels algebraically; the order witness is a source circling around the array axis, for which the iteration is exact.

*Coverage:* At rest (rvec = 0) and for the sign as stated. False: conv_amp has no effect whatsoever; with rvec an axis ahead is turned to the side and the default axis gives silence; all channels use the position of the source at the emission time of the first microphone.

### C82 — SphericalHarmonicSource is a point source weighted with its directivity (partial)

*Code:* sources.py:225-317, sources.py:925-1078. *Theorems* (`Props_SphHarm.v`): `C82_rows_partial`, `C82_coefficients`, `C82_offset_refuted`, `C82_silent_refuted`.

*Model and proof:* `SphHarm.v`: angles with `atan2`, modes from any real function P(l,|m|,ele) in place of the Legendre functions, block transform fft-multiply-ifft with the DFT of `Cplx.v` (shown to be a multiplication by linearity and `idft_dft`), row loop of `PointSources.v`. Witnesses at one microphone.

*Coverage:* Block size independence, the weighting (real coefficients) and the ValueError as stated. False: the signal is read PI/30 samples ahead, so that at some distances the neighbouring sample is delivered (C82_offset_refuted); only the real part of the weighted block is kept, so that a monopole with coefficient i is silent.

### C83 — The pattern of a SphericalHarmonicSource turns with its direction (partial)

*Code:* sources.py:193-317, sources.py:1029. *Theorems* (`Props_SphHarm.v`): `C83_turned_partial`, `C83_length`, `C83_turned_refuted`, `C83_azimuth`, `C83_elevation_partial`, `C83_elevation_refuted`.

*Model and proof:* `SphHarm.v`: atan2 of a rotated pair is atan2 plus the angle modulo 2 pi (through cexp), so differences of azimuths modulo 2 pi are unchanged; elevation about y unchanged. Bounds of acos.

*Coverage:* Rotations about the y axis, the length and the azimuth as stated. False of other rotations: the elevations of direction and microphone are added, so that a half turn about the z axis reverses the sign of a dipole pattern. The elevation lies in [pi/2, 5 pi/2].

### C84 — Convective amplification of MovingPointSource (partial)

*Code:* sources.py:1150-1207. *Theorems* (`Props_MovingLine.v`): `C84_ahead_partial`, `C84_origin`, `C84_receding_refuted`.

*Model and proof:* `MovingLine.v`: the lanes of `PointSources.v` with the distances of a trajectory; what the last Newton step leaves in Mr and eps; the amplified row by induction over the channels. Witness with a path for which two steps are exact.

*Coverage:* The code uses the Mach number of the motion away from the origin instead of towards the microphone (C84_origin, for any trajectory, once the iteration has converged). This agrees with the statement for microphones straight ahead as seen from the origin (C84_ahead_partial). A source that recedes with half the speed of sound becomes four times as loud instead of 4/9 (C84_receding_refuted).

### C85 — MovingLineSource is a LineSource moving along its trajectory (partial)

*Code:* sources.py:1710-1947. *Theorems* (`Props_MovingLine.v`): `C85_at_rest_partial`, `C85_conv_amp`, `C85_shift_refuted`, `C85_last_only_refuted`, `C85_order_refuted`.

*Model and proof:* `MovingLine.v`: emission times per monopole, axis rotation of `Dipole.v`, row loop of `PointSources.v`. At rest the iteration ends at t - r/c and every row is that of `line_row`; witnesses with lines of length 0.

*Coverage:* At rest (rvec = 0) it is a LineSource that starts at 2 start + 1/fs: one sample late, and start counted twice. conv_amp acts on the last monopole only. All distances are taken at the emission time of the first microphone, so that the order of the microphones matters.

### C86 — BeamformerGridlessOrth keeps every selected component in columns of its own (partial)

*Code:* fbeamform.py:2339-2465, fbeamform.py:280-305. *Theorems* (`Props_Gridless.v`): `C86_map_partial`, `C86_components`, `C86_position`, `C86_order_refuted`, `C86_last_refuted`.

*Model and proof:* `Gridless.v`: state of the result row and of the shared positions; each request writes the columns `i*n ...`; by induction over any sequence of requests. The optimiser is any function returning a position; Cauchy-Schwarz (from `Beamform.v`) shows that the position of the source minimises the objective. Witnesses with two frequencies and one component too many.

*Coverage:* As stated while eva_list has no more than n entries. False for longer lists, which the documentation allows: neighbouring frequencies share columns, so that positions depend on the order of the requests (C86_order_refuted), and the last frequency raises IndexError (C86_last_refuted).

### C87 — BeamformerGIB fits every selected eigenmode with regularised least squares (partial)

*Code:* fbeamform.py:2058-2293. *Theorems* (`Props_Gib.v`): `C87_ridge`, `C87_map_partial`, `C87_reduced`, `C87_no_regularisation`, `C87_regularisation_refuted`, `C87_modes_refuted`, `C87_no_modes`.

*Model and proof:* `Gib.v`: both formulas solve the normal equations of the same cost (`suzuki_wide_normal`, `suzuki_tall_normal`), which characterise the minimum (expansion of the cost); induction over iterations and modes. Matrix inversion and largest eigenvalue are parameters with a specification. Witness with two disjoint groups of points.

*Coverage:* Optimality (for the regularisation actually stored) and, with beta >= 1, the map as stated. False: the regularisation is stored in an integer array, so that its fraction is lost and values below 1 mean none; with beta < 1 only the points kept for the last mode are shown, a stronger source found with an earlier mode is missing from the map. Without a positive eigenvalue UnboundLocalError is raised.

### C88 — FiltWNoiseGenerator filters white noise and keeps it aligned (partial)

*Code:* signals.py:199-265, signals.py:345-462. *Theorems* (`Props_Signals.v`): `C88_filter_partial`, `C88_prefix`, `C88_empty`, `C88_centred`, `C88_leading_refuted`.

*Model and proof:* `Signals.v`: noise as any function of seed and index; direct-form filter with the values so far as state; the difference equation by induction over the input. Witness with leading zeros.

*Coverage:* As stated when the first coefficients of ar and ma are not zero. False for leading zeros in ma, which tf2sos drops, so that the delay they mean is lost: ma = [0, 0, 1] delivers the noise two samples early. The noise is any sequence per seed; the factorisation into second-order sections is not modelled.

### C89 — usignal upsamples without changing the samples (partial)

*Code:* signals.py:82-121, signals.py:465-557. *Theorems* (`Props_Signals.v`): `C89_keeps`, `C89_sine_partial`, `C89_sine_refuted`.

*Model and proof:* `Signals.v`: rfft, zero padding and irfft of any length (`irfft_n`); the folded sum of characters (`rsumn_fold`) shows that every factor-th value is kept; a sine with whole periods has two non-zero bins. Witness with half a period.

*Coverage:* Length and kept samples as stated. The sine is reproduced if the signal holds a whole number of periods, otherwise it is not (C89_sine_refuted), because scipy's resample continues the signal periodically.

### C90 — num_samples and num_channels announce what result delivers (partial)

*Code:* base.py:161-310, process.py:132-148, tprocess.py:155-197, tprocess.py:1940-2085, tbeamform.py:180-330, spectra.py:280-290. *Theorems* (`Props_Announce.v`): `C90_announced_partial`, `C90_average_partial`, `C90_mixer_refuted`, `C90_time_convolve_refuted`, `C90_beamformer_time_refuted`, `C90_csm_scaled`.

*Model and proof:* `Announce.v`: value of the attribute by recursion over the pipelines of `Chain.v`, compared with the length of the specified stream by the same induction; `pipe_delivers` (C03) connects it with the blocks. Counterexamples from the theorems of C12 and C50.

*Coverage:* Proved by induction over all chains of Calib, MaskedTimeOut, ChannelMixer, TimePower, TimeCumAverage, TimeReverse, Filter, FiltFiltOctave, Average and Mixer, given that averages leave no remainder and mixed sources are long enough. False for Mixer with a shorter source, Average with a remainder, TimeConvolve (longer by the kernel minus one) and BeamformerTime (shorter by the largest delay); the effect on a cross spectral matrix is a wrong scale (C90_csm_scaled).

### C91 — PointSourceConvolve delivers the signal convolved with the impulse responses (partial)

*Code:* sources.py:2331-2455. *Theorems* (`Props_Announce.v`): `C91_rows_partial`, `C91_one_kernel_refuted`, `C91_num_samples_refuted`.

*Model and proof:* `Announce.v`: repeated signal as a TimeSamples source of the model of TimeConvolve (C12).

*Coverage:* With one column per microphone and for block sizes as in C12 as stated. False for a single column (as in the documented example): all microphones but the first are silent; num_samples is that of the signal, not of the result.

### C92 — CrossPowerSpectra delivers the cross spectra of every snapshot (partial)

*Code:* fprocess.py:283-452, spectra.py:385-401. *Theorems* (`Props_CrossSpectra.v`): `C92_full_partial`, `C92_diagonal`, `C92_welch`, `C92_triangle_refuted`, `C92_one_channel`.

*Model and proof:* `CrossSpectra.v`: loop over the snapshots with the reused upper triangle, calcCSM and its completion as in `Csm.v`; numpy's assignment of a row of a different length raises. Compared with AutoPowerSpectra (C65) and PowerSpectra (C30).

*Coverage:* As stated for calc_mode 'full' and for one channel. With two or more channels 'upper' and 'lower' always raise ValueError (C92_triangle_refuted). C92_welch uses num_blocks as PowerSpectra does (C30).

### C93 — barspectrum sums every line into one band (partial)

*Code:* tools/helpers.py:105-293. *Theorems* (`Props_Bars.v`): `C93_values_partial`, `C93_bars`, `C93_bardata`, `C93_overlap_refuted`, `C93_gap_refuted`, `C93_low_refuted`, `C93_empty_refuted`.

*Model and proof:* `Bars.v`: index arithmetic of barspectrum as written, on `helper_synthetic` of C41; band sums, borders and the doubled points compared with a separate list of nominal frequencies. Witnesses use 1.12 < 2^(1/6) < 1.1225.

*Coverage:* Values, range of bands and bars as stated. False: the edges are computed from rounded centre frequencies, so lines are counted twice (overlap) or not at all (gap); the lowest band always begins below the first line when 31.5 Hz is too low; a spectrum below the lowest band raises ValueError with bar=True.

### C94 — TimeExpAverage is the exponential average of IEC 61672 (proved)

*Code:* tprocess.py: TimeExpAverage._get_sos, Filter.result. *Theorems* (`Props_Weights.v`): `C94_average`, `C94_step`, `C94_decay`, `C94_bounds`.

*Model and proof:* `Weights.v`: coefficients of the single section as calculated, run by the Filter model of C07; geometric sums by induction over the stream.

*Coverage:* The weights as exponentials of the age of the sample, for every block size; Filter.result as in C07.

### C95 — FiltFreqWeight weights a tone with the nominal A, C or Z gain (partial)

*Code:* tprocess.py: FiltFreqWeight._get_sos, Filter.result. *Theorems* (`Props_Weights.v`): `C95_response`, `C95_weight_partial`, `C95_flat`, `C95_nominal_refuted`.

*Model and proof:* `Response.v`: partial fractions with complex poles bound the transient of one section (poles inside the unit circle), induction over the cascade; `Weights.v`: polymul and bilinear on coefficient lists, numerator and denominator evaluated on the unit circle and compared with the nominal formula written in the Props file.

*Coverage:* Every stable Filter answers a tone with the magnitude of its transfer function, with an exponentially decaying transient. The gain of A and C is the nominal gain at the frequency fs/pi*tan(pi f/fs) instead of f, so a tone at fs/2 is removed. tf2sos enters by its post-condition (same numerator and denominator).

### C96 — Octave and third-octave filters have the edges of their band (partial)

*Code:* tprocess.py: FiltOctave._get_sos, FiltFiltOctave._get_sos, OctaveFilterBank._get_sos, OctaveFilterBank._get_bands. *Theorems* (`Props_Weights.v`): `C96_edges`, `C96_too_high`, `C96_filtfilt_partial`, `C96_bank`, `C96_filtfilt_refuted`, `C96_overlap_refuted`, `C96_bank_stale_refuted`.

*Model and proof:* `Weights.v`: edges as calculated, `butter` any function that refuses edges outside (0, 1); sin x < x for the edges; caching of the bank with the machine of `Traits.v` (C28).

*Coverage:* FiltOctave and third-octave FiltFiltOctave as stated. FiltFiltOctave refuses octave bands below the limit; adjacent bands of a bank overlap; a bank keeps its first coefficients when lband or hband change.

### C97 — c_air gives the speed of sound of humid air and refuses conditions outside the range of its formula (partial)

*Code:* tools/helpers.py:349-403, tools/utils.py:109-116. *Theorems* (`Props_Air.v`): `C97_value_partial`, `C97_temperature`, `C97_humidity`, `C97_bounds`, `C97_negative_humidity_refuted`, `C97_percent_refuted`, `C97_enhancement_refuted`.

*Model and proof:* `Air.v`: helpers.py/utils.py over the reals; reference formulas written separately in the Props file; monotonicity by bounds on the polynomial's partial derivatives over the accepted range.

*Coverage:* Polynomial, range checks, monotonicity and bounds as stated for nonnegative humidity. The enhancement factor is evaluated with Kelvin instead of degrees Celsius, so the vapour fraction is 4-6 % too high; humidities below 0 or above 100 % and negative CO2 contents are accepted (a negative speed of sound is possible).

### C98 — Constant-power weights give every ring of microphones the power of its area (partial)

*Code:* tbeamform.py:59-85. *Theorems* (`Props_PowerWeight.v`): `C98_power_partial`, `C98_one_ring_refuted`, `C98_outermost_refuted`.

*Model and proof:* `PowerWeight.v`: numpy `unique` and `histogram` modelled as list functions; each bin contains exactly one ring because midpoints separate sorted distinct values (induction); the weights' normalisation by summation.

*Coverage:* Power proportional to the ring's area with the edges the code uses. Arrays with one ring (circular arrays) raise IndexError; the outer edge of the outermost ring is calculated from the midpoints instead of the rings, so it gets too little power.

### C99 — LineGrid spans its length with equally spaced points, MergeGrid holds every point once with its subgrid (partial)

*Code:* grids.py:932-1010, grids.py:1012-1084. *Theorems* (`Props_GridMore.v`): `C99_line_partial`, `C99_one_point_refuted`, `C99_merge_partial`, `C99_subgrids_partial`, `C99_subgrids_refuted`.

*Model and proof:* `GridMore.v`: closed form of the positions; `unique(axis=1)` as insertion into a lexicographically sorted list.

*Coverage:* LineGrid for at least two points and a nonzero direction; one point (the default) divides by zero. MergeGrid's points as stated; subgrids is neither in the order of the points nor of their number.

### C100 — RectGrid.indices selects exactly the grid points of a circle, rectangle or polygon (partial)

*Code:* grids.py:484-540, grids.py:716-760, grids.py:453-482. *Theorems* (`Props_GridMore.v`, `Props_Jordan.v`): `C100_circle_partial`, `C100_polygon_partial`, `C100_simple_polygon_partial`, `C100_rectangle_partial`, `C100_box_axis_partial`, `C100_outside_refuted`, `C100_index_refuted`.

*Model and proof:* `GridMore.v`: filter of all index pairs; own index by C43, polygon by C66; rectangle bounds by the truncation/rounding of the corners.

*Coverage:* Circles and simple polygons exactly, for grids whose extent differs from a multiple of the increment by less than half of it; else an index may be out of range. Rectangles and boxes (extents multiples of the increment) also select points up to half an increment outside.

### C101 — Cached results are those that would have been calculated (partial)

*Code:* fbeamform.py:362-449, spectra.py:492-550, configuration.py:83-91. *Theorems* (`Props_FileCache.v`): `C101_values_partial`, `C101_file`, `C101_reuse`, `C101_overwrite`, `C101_untouched`, `C101_csm_partial`, `C101_csm_overwrite`, `C101_csm_uncached`, `C101_closed_node_refuted`, `C101_mode_change_refuted`, `C101_csm_readonly_refuted`, `C101_csm_assign_refuted`.

*Model and proof:* `FileCache.v`: a cache file as a map from nodes to rows with flags, the open/create/remove decisions per mode as written, objects holding a node; invariant over any sequence of requests: a row marked done holds the value the settings determine.

*Coverage:* Values, reuse and the effect on files as stated while the mode is not changed and no two live objects with the same settings overwrite. pytables 'overwrite': a second object removes the node the first still uses; an object that got its node in a writing mode still writes after the change to 'readonly'; a cached cross-spectral matrix that is zero raises in 'readonly'; csm is the array in the file, so a user's assignment changes later runs.

### C102 — The sound card source delivers what the card recorded (partial)

*Code:* sdinput.py:25-136. *Theorems* (`Props_SoundDevice.v`): `C102_limited_partial`, `C102_unlimited`, `C102_none`, `C102_settings_partial`, `C102_overflow_refuted`, `C102_running_refuted`, `C102_rate_refuted`.

*Model and proof:* `SoundDevice.v`: the recording is any function of the sample index, overflow any function of the read; generator states start/loop/ended; induction over the blocks.

*Coverage:* Blocks and numbers of samples as stated for any recording. The overflow flag is overwritten by every block, running stays true after an early close, sample_freq keeps the rate of the first device.

### C103 — The frequency range of PowerSpectra selects the lines inside it (partial)

*Code:* spectra.py:200-346, fbeamform.py:663-687. *Theorems* (`Props_FreqRange.v`): `C103_range_partial`, `C103_open_partial`, `C103_index_partial`, `C103_default`, `C103_read_partial`, `C103_integrate`, `C103_last_line_refuted`, `C103_above_refuted`, `C103_read_refuted`, `C103_forget_refuted`.

*Model and proof:* `FreqRange.v`: getters and setters as pure functions of the shadow traits (their caching is C28); `searchsorted` on the increasing list of lines characterised by induction; slices with `slice_list` of C40.

*Coverage:* All lines but the last exactly as stated, and the lines of integrate. No upper limit but None includes the line at half the sampling frequency; (lo, None) above it still selects that line; freq_range cannot be read after (lo, None) and reads None for the upper limit once ind_high was None; setting ind_low forgets freq_range.

### C104 — Eigenvalues of the cross-spectral matrix (partial)

*Code:* spectra.py:403-490, spectra.py:552-612. *Theorems* (`Props_SynthEv.v`): `C104_decomposition`, `C104_power`, `C104_band_partial`, `C104_line_partial`, `C104_band_power`, `C104_empty_band_refuted`, `C104_above_refuted`.

*Model and proof:* `SynthEv.v`: eigh is any function whose result satisfies `is_eigh` (orthonormal columns, eigen equation, ascending); completeness from Subspace.expansion gives the reconstruction, the trace and, with the Gram form of the Welch matrix, the signs. Bands with `searchsorted` on an increasing list.

*Coverage:* Decomposition, signs, sums and bands with at least one line as stated (eigh is assumed to return an ordered orthonormal eigendecomposition). A band between two lines delivers the line above it instead of zero; above the last line IndexError.

### C105 — CLEAN in the time domain on moving grids (partial)

*Code:* tbeamform.py:356-503, tbeamform.py:648-749, tfastfuncs.py:85-140. *Theorems* (`Props_CleantTraj.v`): `C105_decomposition`, `C105_blocks_partial`, `C105_rest`, `C105_end_refuted`.

*Model and proof:* `CleantTraj.v`: the loop of a window as in C78 with delays, amplitudes and distances per row; the stream as in C67; equality with `Cleant.v` for constant delays because truncation commutes with whole samples.

*Coverage:* Decomposition, rows and the case at rest as stated, over the reals (the code defaults to double, single precision is not modelled). When the last block has no rows, which a receding grid produces, the generator ends with ValueError where BeamformerTimeTraj ends.

### C106 — The transfer matrix relates microphones to the reference (partial)

*Code:* fbeamform.py: SteeringVector._set_ref, _get_r0, _get_rm, transfer, steer_vector, fastFuncs.py: calcTransfer, _transferCoreFunc, environments.py: Environment._r. *Theorems* (`Props_SteerVec.v`): `C106_transfer_partial`, `C106_refused`, `C106_index`, `C106_steer`, `C106_phase`, `C106_zero_refuted`, `C106_single_refuted`.

*Model and proof:* `SteerVec.v`: the object's reference, distances with the shape rule of `_r` and `atleast_2d`, the broadcasting rule of calcTransfer, Python indices; the vectors are those of `Beamform.v` per row. Ratio by complex algebra, minimal norm by Cauchy-Schwarz, phase bound by |e^ia - e^ib| <= |a - b| with any rounding, float32 as instance.

*Coverage:* For two microphones or more and a reference other than the scalar 0 exactly as stated, for the distances of any environment. ref = 0 is accepted but every use raises TypeError (grid.pos is called); a single microphone with two grid points or more raises ValueError.

### C107 — Counts computed with floats are the integer counts (partial)

*Code:* process.py: Average.result, fprocess.py: RFFT._get_num_samples, _get_num_freqs, IRFFT.result, CrossPowerSpectra._get_num_channels, tprocess.py: TimeConvolve, tbeamform.py: BeamformerTime.result, trajectory.py: Trajectory.traj. *Theorems* (`Props_Rounding.v`): `C107_binary64`, `C107_counts`, `C107_channels`, `C107_arange_partial`, `C107_arange_refuted`.

*Model and proof:* `Rounding.v`: a record `rounding rnd u` (relative error u, monotone, exact for integers up to 1/u), proved of `rne p` (round to nearest even, p bits, unbounded exponent); floor and ceiling of a rounded quotient by monotonicity below and by the gap 1/b above. Witness evaluated with integers (`rne_frac`, `rne_tie`).

*Coverage:* The integer counts exactly as stated (sizes up to 1/(8u), 2^50 in double precision, no overflow). The number of positions of traj: exact away from whole numbers of steps, n or n + 1 for a whole number n of steps; traj(0.1, 0.4, 0.1) has four positions, the last at t_end.

### C108 — RectGrid's counts, points and indices survive rounding (partial)

*Code:* grids.py: RectGrid._get_nxsteps, _get_pos, index. *Theorems* (`Props_Rounding.v`): `C108_steps_partial`, `C108_position`, `C108_index_partial`, `C108_own_partial`, `C108_last_refuted`.

*Model and proof:* `Rounding.v`: forward error analysis of the steps, positions and index formulas with the `rounding` record; the witness -1, 0.1, 0.1 evaluated in 53 bits.

*Coverage:* Counts, places and indices as stated for all points but the last, which rounding can put outside the range: index() then raises ValueError, for example with x_min=-1, x_max=0.1, increment=0.1.

### C109 — Spectral lines and single-line results in floating-point arithmetic (partial)

*Code:* spectra.py: BaseSpectra.fftfreq, fprocess.py: RFFT._get_freqs, fbeamform.py: BeamformerBase.synthetic. *Theorems* (`Props_Rounding.v`): `C109_lines`, `C109_select_partial`, `C109_nominal_refuted`.

*Model and proof:* `Rounding.v`: forward error analysis of k * (1 / (n * (1 / fs))), strict growth from the error bound, `searchsorted` and `synthetic` of `Result.v`; the witness 50000, 64, 8 evaluated in 53 bits.

*Coverage:* Lines as stated; synthetic at the frequency that fftfreq() reports delivers its line. At the nominal frequency k fs / n it need not: at 50 kHz with blocks of 64 samples synthetic(6250, 0) is the line above (with a warning).

### C110 — Microphone geometries and grids from files (partial)

*Code:* microphones.py:MicGeom._import_mpos, microphones.py:MicGeom.export_mpos, microphones.py:MicGeom._get_center, microphones.py:MicGeom._get_aperture, grids.py:ImportGrid.import_gpos. *Theorems* (`Props_MicFile.v`): `C110_elements`, `C110_import`, `C110_missing`, `C110_grid`, `C110_roundtrip_partial`, `C110_name_refuted`, `C110_again_refuted`, `C110_empty_refuted`, `C110_center_partial`, `C110_aperture_partial`, `C110_origin_refuted`.

*Model and proof:* `MicFile.v`: documents as trees; induction over the tree for the elements by tag, over the positions for export and import; conversions between numbers and texts are parameters with `float(text(x)) = x` assumed. Mean and maximum over lists of positions.

*Coverage:* Reading as stated; a file without positions is an error. Export and import as stated if the name of the file has no characters that XML reserves (a file named 'nose & tail.xml' cannot be read) and if the new geometry has no invalid channels. Center (up to 1e-16) and aperture as stated unless all microphones are at the origin, when both are None.

### C111 — Names derived for cache and wave files (partial)

*Code:* tools/utils.py:get_file_basename, tools/utils.py:find_basename, tprocess.py:WriteWAV.save, process.py:Cache._get_basename. *Theorems* (`Props_FileName.v`): `C111_stem`, `C111_plain`, `C111_chain`, `C111_single`, `C111_channels_partial`, `C111_channels_refuted`, `C111_origin_refuted`.

*Model and proof:* `FileName.v`: pathlib's stem on lists of characters, the chain as an inductive type, decimal numbers from `DecimalString`; injectivity by induction over the channels.

*Coverage:* Basenames as stated; behind a Cache the alternative is replaced by 'void'. Names of wave files differ for single channels and for channels below ten; channels [1, 23] and [12, 3] are written to the same file, as are different processing steps of the same source.

### C112 — Benchmark files and imported matrices behind a cached beamformer (partial)

*Code:* aiaa/aiaa.py:CsmAIAABenchmark._get_csm, aiaa/aiaa.py:CsmAIAABenchmark._get_indices, aiaa/aiaa.py:CsmAIAABenchmark._get_digest, spectra.py:PowerSpectraImport._get_digest, fbeamform.py:BeamformerBase._get_filecache. *Theorems* (`Props_BenchFile.v`): `C112_csm`, `C112_indices`, `C112_range_refuted`, `C112_sessions`, `C112_cache_refuted`, `C112_frequencies_refuted`.

*Model and proof:* `BenchFile.v`: the matrix entry by entry; two sessions on one cache file on top of `FileCache.v` (C101).

*Coverage:* Matrix and frequencies as stated; ind_low and ind_high are ignored. Cached results are those of the own measurement exactly if the digests differ; the digest of CsmAIAABenchmark is that of the file name, and that of PowerSpectraImport leaves out the frequencies, so the rows of another measurement are returned.

### C113 — A tone comes out of the map with its level and at its place (partial)

*Code:* spectra.py:PowerSpectra.calc_csm, spectra.py:BaseSpectra._get_source_data, fbeamform.py:BeamformerBase._calc, fastFuncs.py:_freqBeamformer_FullCSM. *Theorems* (`Props_Tone.v`): `C113_level_partial`, `C113_location`, `C113_silent`, `C113_hanning`, `C113_window_refuted`.

*Model and proof:* `Tone.v`: composes `Frames.v`, `Csm.v` and `Beamform.v`; the spectrum of a delayed tone by the orthogonality of the roots of unity, the matrix as that of a monopole, the window sums in closed form.

*Coverage:* With the default window 'Rectangular' as stated, if the block size divides overlap times length; otherwise all levels are too small by the ratio of frames to num_blocks (C10). With 'Hanning' a tone at a quarter of the sampling frequency has 2 (bs - 1) / (3 bs) of its level on its line, for every block size.

### C114 — Focusing on a simulated source gives its signal (partial)

*Code:* sources.py:PointSource.result, tbeamform.py:BeamformerTime.result, tfastfuncs.py:_delayandsum4. *Theorems* (`Props_Focus.v`): `C114_exact`, `C114_close`, `C114_exact_refuted`.

*Model and proof:* `Focus.v`: composes `PointSources.v` (C20) and `Das.v` (C50); the nearest sample of the source inside the linear interpolation of the beamformer, bounded by the steps of the signal.

*Coverage:* Exact from the first sample on if the delays are whole numbers of samples; otherwise, from the second sample on, the error is at most (up + 1) / 2 steps of the up-sampled signal over the distance to the reference. Not exact in general: the source takes the nearest sample of its signal, the beamformer interpolates linearly, so with delays of half a sample an alternating signal becomes constant.

### C115 — Unit and order of the channels do not matter (partial)

*Code:* spectra.py:PowerSpectra.calc_csm, fbeamform.py:BeamformerBase._calc, fbeamform.py:BeamformerCapon._calc, fbeamform.py:BeamformerDamas._calc, fbeamform.py:BeamformerClean._calc, fbeamform.py:BeamformerCleansc._calc, fbeamform.py:BeamformerFunctional._calc, fbeamform.py:BeamformerMusic._calc, fbeamform.py:BeamformerGIB._calc. *Theorems* (`Props_Rewire.v`): `C115_base`, `C115_capon`, `C115_damas`, `C115_clean`, `C115_cleansc`, `C115_functional`, `C115_eigenvalues`, `C115_eig_partial`, `C115_music_partial`, `C115_gib_refuted`.

*Model and proof:* `Rewire.v`: sums over a reordered index by permutation of lists; every kernel and loop of `Beamform.v`, `Deconv.v`, `Subspace.v` carries the relation "reordered and scaled" through its state, comparisons included; samples to matrix by `Csm.v`.

*Coverage:* As stated, from the samples on, for all methods but GIB; BeamformerEig needs a simple eigenvalue and MUSIC a gap above the noise subspace (see C116). BeamformerGIB ('Suzuki') rounds its regularisation down to an integer, which depends on the level: doubling all samples of a source found with its power leaves it 9 per cent too low.

### C116 — The eigenvectors chosen do not matter (partial)

*Code:* spectra.py:PowerSpectra.calc_eva, spectra.py:PowerSpectra.calc_eve, fbeamform.py:BeamformerEig._calc, fbeamform.py:BeamformerFunctional._calc, fbeamform.py:BeamformerMusic._calc. *Theorems* (`Props_Spectral.v`): `C116_eigenvalues`, `C116_functional`, `C116_eig_partial`, `C116_music_partial`, `C116_eig_refuted`, `C116_music_refuted`.

*Model and proof:* `Spectral.v`: eigenvectors of different eigenvalues of two decompositions are orthogonal; functions of the matrix, traces and, by counting, the sorted eigenvalues agree.

*Coverage:* Eigenvalues and BeamformerFunctional as stated; BeamformerEig for simple eigenvalues, BeamformerMusic if there is a gap above the noise subspace. Otherwise false: two decompositions of the same matrix with equal eigenvalues give different maps.

### C117 — CLEAN-SC finds and removes one source (partial)

*Code:* fbeamform.py:1455-1546, fastFuncs.py:232-403. *Theorems* (`Props_CleanscOne.v`): `C117_removed_partial`, `C117_ring`, `C117_full_partial`, `C117_full_refuted`.

*Model and proof:* `CleanscOne.v` follows the inner iteration of `Deconv.cleansc` exactly: on the data of one source the component is kappa u conj(a) with real factors u, and one step is u' = (W - s + s u^2)/sqrt(1 + sum s^2 u^2), where s are the weights of the microphones. With diagonal removal W^2 = 1 + sum s^2, u = 1 is a fixed point, and u^2 - 1 contracts with the rate (3 rho + rho^2)/(1 - rho); for equal distances u'^2 - 1 = (u^2 - 1)/n exactly, and all passes of the outer loop are computed by induction. Without diagonal removal W = 1 and u'^2 <= n/(n+1).

*Coverage:* With diagonal removal: exactly as stated for the first pass up to an explicit error (3 rho + rho^2)/(1 - rho) to the 20th, for every steering formulation and geometry in which no microphone has more than a fifth of the weights; for all passes in closed form if the source has the same distance from all microphones. Several passes with different distances are not covered. Without diagonal removal (r_diag = False) the statement is false: the inner iteration removes the diagonal all the same, and the clean level is too large, by more than 1/(2n) with enough passes, by more than 30 % with two microphones and default parameters.

### C118 — Objects can be registered and removed at a SampleSplitter at any time (partial)

*Code:* process.py:383-675. *Theorems* (`Props_SplitDyn.v`): `C118_order`, `C118_late`, `C118_removed`, `C118_remove_unknown`, `C118_remove_all`, `C118_removed_silent`, `C118_remove_partial`, `C118_remove_refuted`, `C118_late_refuted`.

*Model and proof:* `SplitDyn.v` adds register_object and remove_object (lists of objects, stopping at the first error) to the schedules of `Splitter.v`. Order by an invariant of the small steps (received and buffered blocks are a subsequence of those fetched); completeness after a late registration by the same with equality while the buffer suffices; removal by a simulation between the runs with and without the object.

*Coverage:* Order, removal and late registration as stated while the buffer is large enough. Two parts are false: removing an object registered with 'error' or 'warning' ends the generators of other objects, started before, with a KeyError (no effect is proved for treatment 'none'); and an object registered with 'error' while a generator is running loses blocks without an error, since that generator inspects only the objects registered when it started.

### C119 — The rays of GeneralFlowEnvironment are rays of sound (partial)

*Code:* environments.py:GeneralFlowEnvironment.get_interpolator, environments.py:OpenJet.v, environments.py:SlotJet.v, environments.py:RotatingFlow.v. *Theorems* (`Props_Rays.v`): `C119_exact`, `C119_rotating_partial`, `C119_conserved_partial`, `C119_scale`, `C119_uniform`, `C119_core_partial`, `C119_openjet_refuted`, `C119_slotjet_refuted`, `C119_start_partial`, `C119_start_refuted`.

*Model and proof:* Rays.v models the differential equations, the start and the collection of points of get_interpolator. Hamilton's equations are stated with directional derivatives of the dispersion relation; the iff is proved for any flow with a Jacobian, then instantiated for the flow fields of Environ.v. Uniform flow: the solution is shown to be a straight line (zero derivative) and compared with UniformFlowEnvironment by the uniqueness proved for C45.

*Coverage:* The slowness changes with -J s where rays need J^T s (J the Jacobian of the velocity). Both agree exactly where J s = - J^T s: everywhere in a RotatingFlow, in the core of a jet and in uniform flow, where the travel times are those of UniformFlowEnvironment. False at every point of the shear layers of OpenJet and SlotJet: rays crossing them bend wrongly. Rays start backwards where the flow is faster than sound. The numerical integrator, the hull test and the interpolation between the points are not modelled.

### C120 — Only relative positions matter (partial)

*Code:* fbeamform.py:175-189,SteeringVector.ref, environments.py:205-242,Environment._r, environments.py:279-314,UniformFlowEnvironment._r, fastFuncs.py:232-314, tbeamform.py:126-232, environments.py:386-444,SlotJet. *Theorems* (`Props_Rigid.v`): `C120_moved`, `C120_front_back`, `C120_unit_of_length`, `C120_reference`, `C120_rays`, `C120_slotjet`, `C120_moved_refuted`.

*Model and proof:* Rigid.v: distances of Environ.v are invariant under orthogonal maps and shifts (scalar products and norms are), as functions, hence every method that reads positions only through r0 and rm gives the same result. Change of unit: the raw steering vectors gain a real factor that the four normalisations cancel; carried through the loops of CLEAN-SC by induction. Rays: derivatives of the moved curve; SlotJet: cross products turn up to the determinant.

*Coverage:* As stated (beamformers, PSF, CLEAN-SC, Capon, MUSIC, functional, BeamformerTime, PointSource; Environment and UniformFlowEnvironment; also rays and SlotJet velocities turn with the flow), except the last sentence: SteeringVector.ref stays at the origin, so moving only microphones and grid changes maps of types 'inverse' and 'true level'. OpenJet is tied to the x axis and has no orientation to turn.

### C121 — Faulty microphones can be marked (partial)

*Code:* sources.py:617-746,MaskedTimeSamples, microphones.py:163-172,MicGeom.pos, fbeamform.py:412-416,_assert_equal_channels, spectra.py:385-401, tbeamform.py:126-232,BeamformerTime.result. *Theorems* (`Props_Faulty.v`): `C121_removed`, `C121_no_influence`, `C121_submatrix`, `C121_count`, `C121_marks_refuted`, `C121_time_refuted`.

*Model and proof:* Faulty.v composes MaskedTimeSamples, MicGeom, PowerSpectra and the two beamformers from Sources.v, Csm.v, Beamform.v and Das.v. The traces of the marked and of the smaller recording are equal for every block size (uniqueness of the blocks delivered, C02), hence everything computed from them; the submatrix by the entrywise formula of C30 and the commutation of channel selection with slicing and calibration.

*Coverage:* As stated for BeamformerBase and BeamformerTime, with and without calibration, except the last sentence: BeamformerBase compares only the numbers of channels (different numbers are refused, different channels of the same number are not and give a wrong map), BeamformerTime compares nothing and pairs positions with the wrong signals.

### C122 — A stream written to an HDF5 file is the stream read from it (partial)

*Code:* tprocess.py:1844-1950, sources.py:380-520, sources.py:600-746, h5files.py:40-130. *Theorems* (`Props_Store.v`): `C122_float64`, `C122_stopped`, `C122_masked`, `C122_float32_partial`, `C122_copy`, `C122_integers`, `C122_default_refuted`, `C122_nothing_refuted`.

*Model and proof:* Composition of the models of WriteH5 (Collect.v) and of TimeSamples, MaskedTimeSamples (Sources.v) with the conversion of reals to IEEE binary32 (normal, subnormal, overflow), proved to be nearest among the numbers that fit; the masked case against the model of MaskedTimeOut

*Coverage:* Holds for precision 'float64'. The default precision 'float32' changes numbers: each becomes the nearest float32 (proved nearest, with the error bound, order kept, copies stable), 2^24+1 is read as 2^24 and 2^128 as infinity. A stream without samples is written to a file that cannot be read. Metadata and the HDF5 libraries are outside the model.

### C123 — Virtual rotation of a plane array with inverse distance weighting (partial)

*Code:* tprocess.py:663-1096, tprocess.py:1213-1263. *Theorems* (`Props_Idw.v`): `C123_stream`, `C123_range`, `C123_aligned_partial`, `C123_plane_refuted`, `C123_count_refuted`.

*Model and proof:* Idw.v: coordinates by cartToCyl with Q, angle shift modulo 2 pi, distances, selection and weights as in the code; argsort is any function that sorts. Distances are proved to be those of the turned points by the addition theorems; the stream by induction over the blocks.

*Coverage:* Weighted mean, block sizes and range as stated, for every argsort (any order of equal distances). The last sentence is false: the z coordinate of virtual microphones is replaced by zero, so for an array in another plane a virtual microphone at the place of a real one does not get its channel; and unless there are as many virtual as real microphones (or one) a ValueError is raised. interp_at_zero and 3D arrays are not modelled.

### C124 — Changing the settings of a spatial interpolator takes effect (partial)

*Code:* tprocess.py:673-764. *Theorems* (`Props_Idw.v`): `C124_weights_partial`, `C124_frozen_partial`, `C124_virtual_refuted`.

*Model and proof:* Idw.v: state machine of the object with its cached coordinates; induction over the history.

*Coverage:* False: the coordinates are cached at the first sample and never renewed; mics, mics_virtual and Q assigned later are ignored (proved for every history). num_IDW and p_weight take effect.

### C125 — Accuracy of maps in floating-point arithmetic (partial)

*Code:* fastFuncs.py:213-314, fbeamform.py:457-520. *Theorems* (`Props_Roundoff.v`): `C125_map`, `C125_floor`, `C125_level`, `C125_audio`, `C125_double_refuted`.

*Model and proof:* Roundoff.v: the kernel _freqBeamformer_FullCSM with every operation rounded, in the order of the loops; phases in single precision, sine and cosine with an absolute error. Relations "within (g-1) times the bound A" compose under sums, products, quotients and loops; induction over the number of microphones. Cauchy-Schwarz gives the floor.

*Coverage:* The bounds hold for every rounding; 2 sqrt 2 (growth - 1) is at most 0.5 per cent up to 1000 microphones and phases up to 10000. The last sentence is false: the phase k*r is converted to np.float32, so the error grows with the phase times 2^-24; with phases of 8192 an error of more than 2^-13 of the autopower occurs even if every other operation is exact. The floor is proved for 'classic'; for the other formulations C125_map gives the bound with their weights. Overflow, underflow and the rounding of the distances themselves are outside.

### C126 — What BeamformerDamas converges to (partial)

*Code:* fastFuncs.py:791-824, fbeamform.py:1201-1238. *Theorems* (`Props_Damas.v`): `C126_descent`, `C126_optimal`, `C126_stationary`, `C126_recovers`, `C126_diagonal_refuted`.

*Model and proof:* Damas.v: the matrix handed to the solver is the Gram matrix of the rank one matrices of the grid points divided by its diagonal, so each point update is a relaxed and clipped coordinate descent of the squared Frobenius distance. The costs decrease and are bounded; level sets are bounded because the Gram matrix has non-negative entries and positive diagonal; small steps imply a small gradient, and convexity gives the minimum.

*Coverage:* Holds with the diagonal; no diagonal dominance is needed. The first sweep needs a positive semidefinite matrix for the descent (a map with negative values may precede it). False with r_diag: the point spread function handed to the solver is that of the full matrix, so even a single source on the only grid point gets the wrong strength after any number of sweeps. For the other formulations the matrix cannot be made symmetric this way or has no unit diagonal, see C37. The relaxation must not exceed one here.

### C127 — BeamformerDamasPlus solves the DAMAS system (partial)

*Code:* fbeamform.py:1244-1360. *Theorems* (`Props_DamasPlus.v`): `C127_unit`, `C127_nnls`, `C127_nnls_solved`, `C127_lp_partial`, `C127_lasso_zero`, `C127_lp_refuted`, `C127_same_refuted`, `C127_lasso_refuted`.

*Model and proof:* DamasPlus.v: the documented problems of nnls, linprog and LassoLars as predicates on their results, with the scaling by unit_mult and by the column norms. Substitution for the unit; sums of squares or of non-negative slacks that vanish for exact data; a perturbation along strengths with a constant map for the Lasso. Counterexamples with two microphones, two points and explicit optima.

*Coverage:* Unit multiplier and 'NNLS' as stated, for every steering type (with the diagonal; without it see C126). False for 'LP': the objective uses the row sums of the matrix where the sum of the map needs column sums; the strengths are found only if both are equal. False for 'LassoLars': the intercept that scikit-learn fits by default is dropped, at least one strength becomes zero and the others too small however small the penalty. 'NNLS' minimises the distance of the maps, not of the matrices, so that inexact data give another map than BeamformerDamas. The solvers are taken to return solutions of their documented problems; 'OMPCV' is not modelled.

### C128 — The cache file of point spread functions (partial)

*Code:* fbeamform.py:1016-1111. *Theorems* (`Props_PsfStore.v`): `C128_full_partial`, `C128_interrupted_refuted`, `C128_frequency_refuted`.

*Model and proof:* PsfStore.v: the writes of calc_psf to the arrays in the file as a list of effects; an interruption keeps a prefix. Invariant (flagged columns are right for their frequency) by induction over prefixes and histories; nearest hundredths of frequencies more than 0.01 apart differ.

*Coverage:* Holds for frequencies equal or more than 0.01 Hz apart if no calculation in the modes 'full' and 'block' is broken off ('single' may be). False otherwise: 'full' sets all flags before it calculates, so that a calculation that is broken off leaves a file from which zeros are read for ever; and the frequency is part of the node name with two decimals only. One process at a time; global caching 'all'.

### C129 — BeamformerDamas with steering type 'inverse' (partial)

*Code:* fbeamform.py:1200-1240, fastFuncs.py:659-690, fastFuncs.py:791-824. *Theorems* (`Props_DamasInv.v`): `C129_leakage`, `C129_inverse`, `C129_inverse_refuted`.

*Model and proof:* DamasInv.v: sum of positive numbers times sum of their inverses by induction (arithmetic and harmonic mean), the closed form of the kernel for phases of whole turns, the two coordinates of a sweep and induction over the sweeps. Counterexample to convergence with two microphones, linearly independent maps.

*Coverage:* False: for two grid points whose distances differ by whole wavelengths at every microphone the product of the mutual point spread values is at least one, for any number of microphones; then the iteration with damp 1 gives zero for the first point and the level of the dirty map for the second from the first sweep on, whatever the strengths. What does hold: strengths are a fixed point and are approached for diagonally dominant matrices (C37); method 'NNLS' of BeamformerDamasPlus finds them (C127).

### C130 — Unit multiplier and sign of BeamformerCMF (partial)

*Code:* fbeamform.py:1670-1895. *Theorems* (`Props_CsmPen.v`): `C130_unit`, `C130_penalty`, `C130_misfit`, `C130_unit_refuted`, `C130_sign_refuted`.

*Model and proof:* CsmPen.v: the documented problems of the solvers as predicates on their results; costs are homogeneous of degree two when data and strengths (and the penalty, for 'LassoLars') are scaled by the unit. Comparison with the true strengths for the misfit; completing the square for the two counterexamples.

*Coverage:* Holds for 'LassoLars' and 'fmin_l_bfgs_b'; 'NNLS' is covered by C76. False for 'FISTA' and 'Split_Bregman': their penalty is not multiplied by the unit, so that a unit u divides alpha by u (with the default 1e9 it has practically no effect), and they have no bounds, so that strengths may be negative, even the only possible ones. The misfit is at most alpha / (kappa u) times the sum of the strengths. The solvers are taken to return solutions of their documented problems, the weight kappa of the residual in them is left open; 'LassoLarsBIC' and 'OMPCV' are not modelled.

### C131 — BeamformerTimeSq agrees with BeamformerBase (partial)

*Code:* tbeamform.py:145-275, tfastfuncs.py:17-131, tfastfuncs.py:132-228, fbeamform.py:480-620, spectra.py:330-420. *Theorems* (`Props_TimeFreq.v`): `C131_mean`, `C131_removed`, `C131_lines_refuted`, `C131_diagonal_refuted`.

*Model and proof:* TimeFreq.v: shift theorem for periodic sequences, phase of the transfer vector of a line as a root of unity for whole-sample delays, so that the inner product of the steering vector with the spectra is the spectrum of the delay-and-sum output; Parseval's identity (Tone.v) then gives the mean. With removal of the diagonal, for one source, both sides in closed form.

*Coverage:* Without removal of the diagonal it holds for every steering type if the lines at frequency zero and at half the sampling frequency are counted half: the cross spectral matrix doubles all lines of the one-sided spectrum, these two included (constant sound of mean square 1 gives 2). With removal it is false: BeamformerBase divides by 1 - 1/M, BeamformerTimeSq does not, so that a single source comes out lower by the factor 1 - 1/M at every sample. Delays of whole samples, rectangular window, even block size, record length times overlap a multiple of the block size, constant speed of sound.

### C132 — Eigenvalue methods separate incoherent sources (partial)

*Code:* fbeamform.py:827-902, fbeamform.py:1359-1454, spectra.py:430-470, fastFuncs.py:342-403. *Theorems* (`Props_OrthSep.v`): `C132_components`, `C132_orth`, `C132_peak`, `C132_level_refuted`, `C132_place_refuted`.

*Model and proof:* OrthSep.v: the product of a source vector with the eigenvalue equation gives the eigenvalue, different levels leave one source per eigenvector, the K largest eigenvalues lie above the noise (Subspace.v), so that eigenvectors and sources correspond one to one (injective on a finite set); the dyadic product of an eigenvector is then that of its source and all kernels are linear in it (Rewire.v). Strict Cauchy-Schwarz inequality from Lagrange's identity for the maximum.

*Coverage:* BeamformerEig: holds for every steering type, with and without removal of the diagonal; the strength is raised by noise power / sum of (r0/r)^2. BeamformerOrth: all power is given at the point of the source if the map of this source alone has its only maximum there, which 'true location' guarantees unless another point has a parallel transfer vector; with the default 'true level' it may be given at another point. The value is the strength times the mean of (r0/r)^2 over the microphones, plus noise power / M, not the strength at the reference. Both refutations with one source and no noise. Exact arithmetic; eigenvectors as specified for numpy.linalg.eigh.

### C133 — Sources that the array separates do not disturb each other in the map (partial)

*Code:* fbeamform.py:308, fbeamform.py:700, fbeamform.py:791, fastFuncs.py:232. *Theorems* (`Props_Resolve.v`): `C133_undisturbed`, `C133_loudest`, `C133_inverse_refuted`.

*Model and proof:* Resolve.v: the steering vector of these two types is parallel to the transfer vector, hence an eigenvector of the cross spectral matrix; for an eigenvector every function of the matrix (itself, its powers by any eigenvalue decomposition, its inverse) acts as multiplication by a number. Bessel's inequality, strict by Lagrange's identity, for the maximum.

*Coverage:* Holds for 'true level' and 'true location' without removal of the diagonal: BeamformerBase and BeamformerFunctional with every positive exponent then give the same value, p + noise / A or (p A + noise) / M with A the sum of (r0/r)^2, BeamformerCapon this value times (A/M)^2 or A/M, the factor of C73. For 'true location' the maximum of the map of BeamformerBase is at the source with the largest sum of squares at the array. False for 'inverse' (two sources of equal strength with orthogonal vectors: 25/16 instead of 1), whose steering vector is not parallel to the transfer vector. Exact arithmetic.

### C134 — Diagonal removal suppresses the noise of the microphones only (partial)

*Code:* fbeamform.py:308, fbeamform.py:485, fastFuncs.py:232. *Theorems* (`Props_RemovedSep.v`): `C134_removed`, `C134_lowered`, `C134_removed_refuted`.

*Model and proof:* RemovedSep.v: quadratic form without diagonal as difference of the form and of the weighted diagonal; for incoherent sources both are sums over the sources, and orthogonality leaves one term of the first sum but all terms of the second.

*Coverage:* The noise has no influence (uniform here, any diagonal by C32). The second half is false: the diagonal also contains the powers of all sources, so that with orthogonal transfer vectors every further source lowers the map at the others, in closed form, and the value is zero exactly if p A^2 is at most the weighted sum over all sources (A is the sum of (r0/r)^2); witness with two sources of equal strength, 16/25 alone and 0 together. Without removal they do not disturb each other (C133). Default r_diag_norm = 0; exact arithmetic.

### C135 — CLEAN finds the sources with their strengths (partial)

*Code:* fbeamform.py:1549, fbeamform.py:1652, fastFuncs.py:636. *Theorems* (`Props_CleanSep.v`): `C135_found`, `C135_level_refuted`, `C135_near_refuted`.

*Model and proof:* CleanSep.v: loop invariant: the residual is the map of the remaining strengths, the clean map holds what was taken; Bessel's inequality, strict outside the span, puts every maximum at a source; the weighted rest falls by the factor 1 - damp delta / K per pass, and the loop ends only after n_iter passes or with nothing left.

*Coverage:* Holds for 'true location', r_diag = False and no noise, if no other grid point has a transfer vector that is a combination of those of the sources and damp times the relative power A/M of each source is at most one: no other point ever gets anything, the strengths are never exceeded and the sum of A/M times what is missing is at most (1 - damp delta / K)^n_iter times its initial value, delta the smallest A/M. False for 'true level' (the default), where the maximum may lie at another point, and for microphones closer to the source than the reference, because the amplitude is not divided by the maximum of the point spread function: the first pass overshoots and the loop stops (2.4 times the strength for r0/r = 2). Exact arithmetic.

### C136 — A further independent sound never lowers the map (partial)

*Code:* fbeamform.py:485, fbeamform.py:707, fbeamform.py:726, fbeamform.py:808, fastFuncs.py:232. *Theorems* (`Props_AddSound.v`): `C136_base`, `C136_functional`, `C136_capon`, `C136_removed_refuted`, `C136_exponent_refuted`, `C136_sum_refuted`.

*Model and proof:* Heinz.v: the power x^s, 0 < s < 1, is bounded on both sides by Riemann sums of x/(x+t) on a geometric grid of t, so an inequality between all sums of x/(x+t) carries over to the powers (no integral needed). AddSound.v: Cauchy-Schwarz in eigenvector coordinates gives the variational bound of the resolvent; from it the resolvent of the larger matrix is smaller and that of a sum is at most the parallel sum; hence powers are monotone and, with weights theta and 1 - theta, concave, which with the homogeneity of the gamma-th power gives superadditivity. Capon by the same bound for the inverse.

*Coverage:* Holds with the full matrix: BeamformerBase gives exactly the sum, BeamformerFunctional with gamma >= 1 and BeamformerCapon at least the sum (Capon, if one of the matrices has no inverse, at least the value of the other), for every steering type. False with r_diag = True, the default: a second source with orthogonal transfer vector takes the first one from 16/25 to 0. False for gamma < 1, which the trait allows (gamma = 1/2, two sources, two microphones: the map with both is lower than that of one). The sum is exceeded: noise of the two microphones gives 4/125 and 64/125 alone, 4/5 together (gamma = 2). Functional beamforming with powers in real arithmetic; matrix inverse and eigenvalue decomposition by their specification.

### C137 — Small errors of the cross spectral matrix change the maps little (partial)

*Code:* fbeamform.py:485, fbeamform.py:726, fbeamform.py:808, fbeamform.py:866, fastFuncs.py:232. *Theorems* (`Props_Perturb.v`): `C137_entries`, `C137_base`, `C137_steer`, `C137_functional`, `C137_capon`, `C137_capon_refuted`, `C137_eig_refuted`.

*Model and proof:* Perturb.v: quadratic forms and Cauchy-Schwarz for the conventional map; the error is at most additional noise of power eps in all channels, so with C136 (monotone powers) and subadditivity of x^s the functional map is bounded; inverses of matrices with c' <= alpha c by the bound of C136.

*Coverage:* An error of at most delta in every entry is an error of at most eps = M delta of the power in any direction. BeamformerBase changes by at most eps times the sum of squares of the steering vector (1/M for 'classic' and 'true location'), with removed diagonal at most 2 loss times as much; for BeamformerFunctional with gamma >= 1 the same bound holds for the gamma-th roots of the values; BeamformerCapon changes relatively by at most eps / (smallest power in any direction). False for BeamformerCapon without that smallest power: for a fixed array of two microphones no constant bounds the change by eps. False for BeamformerEig with n = -1: an arbitrarily small error may exchange the eigenvectors and change the value from 4/25 to 16/25 of the power. Real arithmetic; rounding is C125.

### C138 — The map of a measurement is the mean of the maps of its parts (partial)

*Code:* spectra.py:385, fastFuncs.py:28, fbeamform.py:485, fbeamform.py:726, fbeamform.py:808. *Theorems* (`Props_Average.v`): `C138_base`, `C138_removed`, `C138_functional`, `C138_capon`, `C138_removed_refuted`, `C138_functional_refuted`, `C138_capon_refuted`.

*Model and proof:* Average.v: the matrix of the joined blocks is the weighted mean of the matrices of the parts, as quadratic form; convexity of clipping; superadditivity of the powers of C136 for any number of summands by induction; concavity of the inverse form by Cauchy-Schwarz.

*Coverage:* True for BeamformerBase with the full matrix: the map of the whole is exactly the mean of the maps of the parts. With removed diagonal it is at most the mean, since negative values are set to zero; for BeamformerFunctional with gamma >= 1 and for BeamformerCapon with invertible matrices it is at least the mean. False as equality in these three cases, with witnesses of two microphones and blocks of 128 samples. The number of blocks of the whole is taken as the sum of those of the parts; PowerSpectra.num_blocks has this property without overlap for parts of whole blocks, with overlap the parts lack the blocks across their borders. The eigenvalue decompositions and inverses are any with the properties of eigh and inv. Real arithmetic.

## 3. Trusted base

* The Coq 8.16.1 kernel; the build is also replayed by `coqchk`.
* The transcription from Python to Gallina (comments cite the lines).
* Idealised arithmetic: reals instead of floats, unbounded integers, no NaN except where a model makes
  an undefined quotient explicit (`option`).
* The behaviour of NumPy/SciPy/h5py/scikit-learn primitives as stated in the comments of the model (slicing,
  assignment shapes, `searchsorted`, `argmin`/`argmax` returning the first extremum, `sosfilt` as a
  causal state machine, HDF5 append as atomic unless the property is about it).

### Not modelled

Numba code generation and parallelism; floating-point rounding (except C106-C109; there without overflow and underflow); the iterations inside optimisers of
SciPy, scikit-learn and pylops; ray tracing (`ode`, `LinearNDInterpolator`) except for its caching; the construction of
spline trajectories; XML/HDF5/WAV byte formats; sounddevice hardware; Delaunay triangulation and the
interpolation methods other than 'linear' and 'IDW' of the spatial interpolators; the Butterworth design
(`butter`, any function of order and edges); the methods of `BeamformerGIB` other than 'Suzuki'; the
optimiser of `BeamformerGridlessOrth` (any function); the
Legendre functions in `SphericalHarmonicSource` (any function); the random number generator (any sequence per seed) and the
factorisation of filters into second-order sections (`tf2sos`: any sections with the same numerator and denominator); plots and graphical views.

### Axioms per theorem

`Print Assumptions` is run in the `Props_*.v` files after every theorem. Groups of theorems by the axioms listed
(all of them from the standard library):

* **no axioms (closed under the global context)**: C01_time_samples, C02_masked_time_samples, C03_channel_mixer_refuses, C04_masked_time_out, C05_mixer, C06_time_reverse, C07_time_power, C08_sample_rate, C09_buffer_too_short, C09_library_users, C09_reblock, C09_windows, C101_closed_node_refuted, C101_file, C101_mode_change_refuted, C101_overwrite, C101_reuse, C101_untouched, C101_values_partial, C102_limited_partial, C102_none, C102_overflow_refuted, C102_rate_refuted, C102_running_refuted, C102_settings_partial, C102_unlimited, C10_frame_count, C10_frames, C110_elements, C110_empty_refuted, C110_grid, C110_import, C110_missing, C110_name_refuted, C110_roundtrip_partial, C111_chain, C111_channels_partial, C111_channels_refuted, C111_origin_refuted, C111_plain, C111_single, C111_stem, C112_indices, C112_sessions, C118_late, C118_late_refuted, C118_order, C118_remove_all, C118_remove_partial, C118_remove_refuted, C118_remove_unknown, C118_removed, C118_removed_silent, C11_rfft_partial, C11_rfft_refuted, C14_write_h5, C14_write_h5_complete, C14_write_h5_save, C16_empty_refuted, C16_h5py_crash_refuted, C16_no_conflict, C16_partial, C17_complete_partial, C17_dict_refuted, C17_late_registration_refuted, C17_order_partial, C17_overflow_lag, C17_restart_refuted, C17_size_refuted, C17_spurious_refuted, C17_stuck_refuted, C17_terminates, C17_threads_refuted, C17_unregistered, C18_source_mixer, C19_uncorrelated_noise, C21_always_flush_partial, C21_checked_flush, C21_empty_block_refuted, C23_generic_signal, C24_return_result, C25_effect, C25_mixer_refuted, C25_partial, C25_sourcemixer_refuted, C26_kept, C26_partial, C26_timereverse_refuted, C27_array_refuted, C27_float_refuted, C27_int_refuted, C27_ldigest, C27_partial, C28_flow_partial, C28_flow_refuted, C29_count_refuted, C29_exact_partial, C29_open_refuted, C29_partial, C29_switch_refuted, C40_accesses_partial, C40_last_index_refuted, C44_multi, C44_subdomain, C54_calib, C55_micgeom, C56, C56_missing, C58_depth, C60_component, C61_rfft_num_samples_partial, C61_rfft_num_samples_refuted, C77_index0_refuted, C77_order, C79_cache, C79_calib_refuted, C79_covered, C79_digest, C79_gaps, C86_components, C99_one_point_refuted

* **`ClassicalDedekindReals.sig_forall_dec`**: C110_again_refuted, C112_range_refuted, C13_filter_bank_refuted, C92_triangle_refuted

* **`ClassicalDedekindReals.sig_forall_dec`, `FunctionalExtensionality.functional_extensionality_dep`**: C03_block_size_independence, C03_pipeline_meaning, C07_filter, C07_time_cum_average, C08_average_partial, C08_num_samples_refuted, C100_box_axis_partial, C100_circle_partial, C100_index_refuted, C100_outside_refuted, C100_rectangle_partial, C101_csm_assign_refuted, C101_csm_overwrite, C101_csm_partial, C101_csm_readonly_refuted, C101_csm_uncached, C103_above_refuted, C103_default, C103_forget_refuted, C103_index_partial, C103_integrate, C103_last_line_refuted, C103_open_partial, C103_range_partial, C103_read_partial, C103_read_refuted, C104_decomposition, C106_refused, C107_arange_partial, C107_channels, C107_counts, C108_index_partial, C108_own_partial, C108_position, C108_steps_partial, C109_lines, C10_num_blocks_partial, C10_num_blocks_refuted, C110_center_partial, C112_cache_refuted, C112_csm, C112_frequencies_refuted, C114_close, C114_exact, C114_exact_refuted, C116_eigenvalues, C122_integers, C130_misfit, C130_penalty, C130_sign_refuted, C130_unit_refuted, C13_filter_bank_partial, C15_truncation, C15_write_wav, C20_late_start_refuted, C20_point_source_partial, C20_point_source_refuted, C20_rounding, C22_line_source_compounding, C22_line_source_partial, C22_line_source_refuted, C22_strengths_refuted, C28_ind_low_refuted, C28_instances, C28_na_partial, C28_na_refuted, C28_na_replaced, C28_necessary, C28_partial, C28_rectgrid_partial, C28_rectgrid_refuted, C36_custom, C37_convergence, C37_fixed_point, C37_nonnegative, C38_clean, C38_decreasing, C40_interrupted_refuted, C42_disjoint, C42_fresh_refuted, C42_integrate_partial, C43_any_extent, C43_bounds_refuted, C43_index3_partial, C43_index_partial, C43_nearest_refuted, C43_own_point, C44_circ, C44_convex_border_refuted, C44_limits_order, C44_poly_nearest_partial, C44_poly_nearest_refuted, C44_rect, C44_rect3d_nearest_refuted, C44_rect3d_partial, C46_rotating, C50_blocks, C50_end, C50_end_refuted, C50_output_partial, C50_weights_refuted, C51_channels_refuted, C51_static_partial, C51_supersonic_refuted, C51_traj_partial, C52_clip_refuted, C52_empty_block_refuted, C52_plain_partial, C53_interval, C53_partial, C53_zero_refuted, C57_eva_partial, C57_eva_refuted, C57_lag, C57_partial, C57_refuted, C60_orth_sum, C62_emission_time, C63_at_rest_partial, C63_start_time_refuted, C67_blocks_refuted, C67_output_partial, C67_trajectory_refuted, C69_candidates, C69_channels, C69_dirac, C69_few, C69_guess_offset, C69_guess_refuted, C69_largest_kept, C69_rect_partial, C69_rect_refuted, C69_warning_partial, C69_warning_refuted, C70_average, C72_squares, C76_cost, C76_distance_refuted, C76_equations, C76_gradient, C76_optimum, C77_cost, C77_gradient, C78_blocks_partial, C78_decomposition, C78_squares, C86_last_refuted, C86_map_partial, C86_order_refuted, C87_no_regularisation, C87_regularisation_refuted, C87_ridge, C88_centred, C88_empty, C88_filter_partial, C88_leading_refuted, C88_prefix, C90_announced_partial, C90_average_partial, C90_beamformer_time_refuted, C90_mixer_refuted, C92_diagonal, C92_full_partial, C92_one_channel, C99_merge_partial, C99_subgrids_partial, C99_subgrids_refuted

* **`ClassicalDedekindReals.sig_forall_dec`, `functional_extensionality_dep`**: C105_blocks_partial, C105_decomposition, C105_end_refuted, C105_rest

* **`ClassicalDedekindReals.sig_forall_dec`, `ClassicalDedekindReals.sig_not_dec`, `FunctionalExtensionality.functional_extensionality_dep`**: C104_power, C106_index, C106_single_refuted, C106_steer, C106_transfer_partial, C106_zero_refuted, C110_aperture_partial, C110_origin_refuted, C113_hanning, C113_level_partial, C113_location, C113_silent, C113_window_refuted, C115_base, C115_capon, C115_clean, C115_cleansc, C115_damas, C115_eig_partial, C115_eigenvalues, C115_gib_refuted, C115_music_partial, C116_eig_partial, C116_eig_refuted, C116_music_partial, C116_music_refuted, C117_full_partial, C117_full_refuted, C117_removed_partial, C117_ring, C119_exact, C119_rotating_partial, C119_scale, C119_start_partial, C119_start_refuted, C125_audio, C126_descent, C126_diagonal_refuted, C126_optimal, C126_recovers, C126_stationary, C127_lasso_refuted, C127_lasso_zero, C127_lp_partial, C127_lp_refuted, C127_nnls, C127_nnls_solved, C127_same_refuted, C127_unit, C128_frequency_refuted, C128_full_partial, C128_interrupted_refuted, C129_inverse, C129_inverse_refuted, C129_leakage, C12_divisible_refuted, C12_kernel_tail_ignored, C12_long_kernel_refuted, C12_one_kernel_refuted, C12_time_convolve_partial, C130_unit, C131_diagonal_refuted, C131_lines_refuted, C131_mean, C131_removed, C132_components, C132_level_refuted, C132_orth, C132_peak, C132_place_refuted, C133_inverse_refuted, C134_lowered, C134_removed, C134_removed_refuted, C135_found, C135_level_refuted, C137_base, C137_capon, C137_capon_refuted, C137_eig_refuted, C137_entries, C137_steer, C138_base, C138_capon, C138_capon_refuted, C138_removed, C138_removed_refuted, C30_csm, C31_data_nonnegative, C31_quadratic_form, C32_diagonal_removal, C32_value, C33_components, C33_components_rdiag_partial, C33_components_rdiag_refuted, C33_functional, C33_kernels, C34_fast_path, C35_level, C35_level_rdiag, C35_location, C36_cached_reads_refuted, C36_kernel, C36_modes_partial, C36_modes_refuted, C37_nonunit_diagonal, C37_unit_diagonal, C39_consistent, C39_result, C45_rest, C45_reversed_flow, C45_wavefront, C49_border_refuted, C49_data_partial, C49_data_refuted, C49_disjoint_partial, C49_first_target, C49_height_refuted, C49_inverse_refuted, C49_rectgrid_refuted, C49_values_partial, C58, C64_energy_scaling_refuted, C64_irfft_of_rfft, C64_window, C65_auto_power_partial, C65_psd_refuted, C66_crossing_refuted, C66_distance, C66_duplicate_vertex_refuted, C68_parallel_refuted, C68_rigid_partial, C70_angle_refuted, C70_constant_partial, C70_few, C70_rpm_refuted, C70_speedup_refuted, C71_everywhere, C71_rotation, C71_steady_field, C72_amplitudes, C72_monopole, C73_bound_partial, C73_source, C73_true_level_refuted, C74_noise_free_refuted, C74_peak_refuted, C74_position, C74_scale, C74_strengths, C76_exact_partial, C76_nnls_refuted, C78_block_size_refuted, C78_negative_refuted, C78_one_point, C79_line_source_refuted, C86_position, C87_map_partial, C87_modes_refuted, C87_no_modes, C87_reduced, C89_keeps, C89_sine_partial, C89_sine_refuted, C90_csm_scaled, C90_time_convolve_refuted, C91_num_samples_refuted, C91_one_kernel_refuted, C91_rows_partial, C92_welch, C94_average, C94_decay, C94_step, C97_bounds, C97_enhancement_refuted, C97_humidity, C97_negative_humidity_refuted, C97_value_partial, C98_one_ring_refuted, C98_outermost_refuted, C98_power_partial, C99_line_partial

* **`ClassicalDedekindReals.sig_forall_dec`, `ClassicalDedekindReals.sig_not_dec`, `functional_extensionality_dep`**: C120_front_back, C120_moved_refuted, C120_rays, C120_reference, C120_slotjet, C121_count, C121_marks_refuted, C121_no_influence, C121_removed, C121_submatrix, C121_time_refuted, C136_base, C136_capon, C136_removed_refuted, C80_directivity_partial, C80_jump, C80_jump_refuted, C80_plane, C80_reversed, C80_rows_partial, C81_at_rest_partial, C81_axis_refuted, C81_blocks, C81_conv_amp_refuted, C81_reversed, C81_silent_refuted, C84_ahead_partial, C84_origin, C84_receding_refuted, C85_at_rest_partial, C85_conv_amp, C85_last_only_refuted, C85_order_refuted, C85_shift_refuted

* **`ClassicalDedekindReals.sig_forall_dec`, `ClassicalDedekindReals.sig_not_dec`, `Classical_Prop.classic`, `FunctionalExtensionality.functional_extensionality_dep`**: C100_polygon_partial, C100_simple_polygon_partial, C104_above_refuted, C104_band_partial, C104_band_power, C104_empty_band_refuted, C104_line_partial, C106_phase, C107_arange_refuted, C107_binary64, C108_last_refuted, C109_nominal_refuted, C109_select_partial, C115_functional, C116_functional, C119_conserved_partial, C119_core_partial, C119_openjet_refuted, C119_slotjet_refuted, C119_uniform, C122_copy, C122_default_refuted, C122_float32_partial, C122_float64, C122_masked, C122_nothing_refuted, C122_stopped, C123_aligned_partial, C123_count_refuted, C123_plane_refuted, C123_range, C123_stream, C124_frozen_partial, C124_virtual_refuted, C124_weights_partial, C125_double_refuted, C125_floor, C125_level, C125_map, C133_loudest, C133_undisturbed, C135_near_refuted, C137_functional, C138_functional, C138_functional_refuted, C41_adjacent, C41_band, C41_helper, C41_line, C44_poly_convex_partial, C44_poly_simple_partial, C46_exit_plane_refuted, C46_openjet_crease, C46_openjet_partial, C46_slotjet_partial, C47_cyl_coordinates, C47_matrix_partial, C47_matrix_refuted, C47_round_trip_partial, C47_round_trip_refuted, C48_full_sphere_refuted, C48_near_pole_partial, C48_rays_partial, C59_levels, C66_convex_partial, C66_far, C66_joined, C66_sign_kept, C66_simple, C71_Q_refuted, C71_identity_partial, C75_decreasing, C75_source, C82_coefficients, C82_offset_refuted, C82_rows_partial, C82_silent_refuted, C83_azimuth, C83_elevation_partial, C83_elevation_refuted, C83_length, C83_turned_partial, C83_turned_refuted, C93_bardata, C93_bars, C93_empty_refuted, C93_gap_refuted, C93_low_refuted, C93_overlap_refuted, C93_values_partial, C94_bounds, C95_flat, C95_nominal_refuted, C95_response, C95_weight_partial, C96_bank, C96_bank_stale_refuted, C96_edges, C96_filtfilt_partial, C96_filtfilt_refuted, C96_overlap_refuted, C96_too_high, C97_percent_refuted, C97_temperature

* **`ClassicalDedekindReals.sig_forall_dec`, `ClassicalDedekindReals.sig_not_dec`, `Classical_Prop.classic`, `functional_extensionality_dep`**: C120_moved, C120_unit_of_length, C136_exponent_refuted, C136_functional, C136_sum_refuted, C81_order_refuted

## 4. Findings in the code

Behaviour of the code found while modelling that contradicts documentation or what a user would expect.
The identifier in brackets names the property whose `_refuted` theorem shows it; items without one were
noticed while reading and are not part of a theorem.

**Blocks, buffers, streams**

* `Average.num_samples` is a real quotient [C08]; `PowerSpectra.num_blocks` is not the number of frames unless
  `block_size` divides the record [C10]; `RFFT.num_samples` ignores the overlap [C61]; `RFFT` invents a zero spectrum
  for records shorter than a block [C11].
* `FilterBank.result` fails or repeats rows when the last block is short [C13]; its `zi` has the size of the first filter.
* `TimeConvolve`: the last rows are missing when `num` divides the length, kernels longer than `num` are cut,
  a single kernel leaves the channels after the first zero, an empty source ends in RuntimeError [C12].
* `Mixer` and `SourceMixer` add in place and overwrite an in-memory array of the user [C25]; `TimeReverse` keeps views of
  buffers that its source reuses [C26]. `Mixer` reports the `num_samples` of its first source.
* `Cache`: UnboundLocalError for an empty source; with h5py a crash between resize and write leaves zero rows that
  are delivered later [C16].
* `SampleSplitter`: several ways to lose blocks or to hang [C17].
* `H5CacheFile` registry: KeyError when an object switches its file, after which the registry stays busy [C29].
* `WriteWAV` uses `tostring()`, removed in NumPy 2.3.

**Sources and signals**

* `PointSource`: a recording that starts late reads outside the signal and may yield more blocks [C20]; the dipole and
  line sources yield an empty last block [C21]; `LineSource` multiplies the rms of the signal object in place, so
  strengths compound [C22]; `MovingPointSource` counts `start` twice [C63].
* The digests of `MaskedTimeSamples`, `LineSource`, `MovingLineSource`, `BeamformerDamas` (no `calcmode`) and the
  interpolators are incomplete; `MergeGrid`'s contains memory addresses.
* `PNoiseGenerator` with depth ≤ −2 gives NaN [C58].

**Spectra**

* `AutoPowerSpectra` doubles the bins 0 and Nyquist, and 'psd' is wrong by the square of the sampling frequency [C65];
  `IRFFT` does not undo the scalings 'energy' and 'amplitude' [C64]; `CrossPowerSpectra` 'upper'/'lower' has a shape error.
* `PowerSpectraImport` takes the checksum of the old matrix [C57].

**Beamforming**

* `PointSpreadFunction` uses `numpy.invert` on int8 flags, so that in the modes 'single' and 'block' wrong columns are
  calculated [C36].
* `BeamformerEig` with diagonal removal clips each component map [C33]. `result[-1]` calculates nothing [C40]. `integrate`
  returns an empty array on a fresh object [C42].
* `BeamformerCapon` normalises as for 'classic' whatever the steering type [C73]. `BeamformerMusic` weights the noise
  subspace with its eigenvalues: without noise everything is 0/0, and at an exact source position the rest of the map
  becomes zero [C74].
* `BeamformerCMF` and `BeamformerDamasPlus` let scikit-learn fit an intercept that is then dropped [C76]; the cost of
  'fmin_l_bfgs_b' counts the main diagonal twice as much as the Frobenius norm does [C76].
* `BeamformerSODIX` never calculates frequency index 0 [C77].
* `BeamformerTime`: ValueError after the last block for most record lengths; weights are applied several times to rows
  that overlap in the buffer [C50]; `BeamformerTimeTraj`: number of rows depends on `num`, RuntimeError when the trajectory
  ends within a block [C67]; number of channels unchecked, supersonic grids read outside the buffer [C51];
  `IntegratorSectorTime` clips relative to the maximum of the block [C52].
* `BeamformerCleant` depends on the block size; `BeamformerCleantSq` with `r_diag` can be negative (not clipped, only the last
  iteration's autopower is subtracted); a window of exactly `max_sample_delay` rows makes `numpy.interp` raise [C78].
* `_get_r0` with a scalar reference 0 raises TypeError; `sig_loss_norm` divides by zero for one microphone.

**Grids, sectors, geometry**

* `RectGrid.index` is wrong where the extent is not a multiple of the increment [C43]; `RectGrid.pos` does not depend on `z`
  [C28]; `RectSector3D` ignores z in its default nearest point, `PolySector`/`ConvexSector` use the argmin of the centroid's
  coordinates, `in_hull` without border tests `> 0` [C44]; a polygon vertex given twice turns outside into inside, and
  in a polygon that crosses itself one lobe is reported as outside [C66].
* `LineGrid` with one point (the default) divides by zero [C99].
* `MergeGrid.subgrids` has one name per point before duplicates are removed and before the points are sorted, so it does not name
  the subgrid of each point [C99].
* `RectGrid.indices` of a rectangle (and of a box in 3D) selects points up to half an increment outside; a circle or polygon on a grid
  whose extent is not nearly a multiple of the increment can give indices beyond the grid's shape [C100].
* `cylToCart` exchanges x and y [C47]; the last ray of the full sphere is NaN [C48]; the jets' Jacobians are NaN in the exit
  plane [C46]; positions are NaN when `rvec` is parallel to the velocity [C68].
* `PowerSpectra.ind_low`/`ind_high`, `BeamformerEig.na`, and the ray tables of `GeneralFlowEnvironment` become stale [C28].
* `Trajectory.traj` treats `t_end = 0.0` as not given [C53].
* `MetricEvaluator` with `multi_assignment=False` overwrites the data of the user; circles of targets that differ in height
  overlap; points on the common border count twice [C49].
* Digests concatenate values without separators and print large arrays abridged [C27].
* Digests that miss attributes the result depends on [C79]: `Calib` (`invalid_channels`), `BeamformerDamasPlus`
  (`psf_precision`), `BeamformerGridlessOrth` (`n`), `SphericalHarmonicSource` (`direction`), `MovingPointSource` (`up`),
  `MovingPointSourceDipole` and `MovingLineSource` (`trajectory`, `conv_amp`, `rvec`, ...), `LineSource` (`length`,
  `num_sources`), `AngleTracker` (`start`, `stop`, `invalid_channels`), `SpatialInterpolator*Rotation` (`num_IDW`,
  `p_weight`), `WriteH5` (`num_samples_write`). `Cache` then serves another object's data.
* `LineSource` with incoherent monopoles takes the seeds from Python's `hash` of a string, which differs between processes.

**Dipoles**

* `PointSourceDipole`: the two poles are 1e-5 |direction| samples apart; at microphones where their delays round to different
  indices every sample is larger by up to 1e5/|direction| [C80].
* `MovingPointSourceDipole`: `conv_amp` cancels; `get_moving_direction` ends with a cross product with `rvec`, so the default
  direction is silent and others are turned by 90 degrees and scaled with |rvec|; the source position is taken at the emission
  time of the first microphone for all channels [C81].

**Other simulated sources**

* `SphericalHarmonicSource` reads the signal pi/30 samples ahead (`+ pi / 30` in the index) and keeps only the real part, so
  that the phase of coefficients is lost [C82]; `get_radiation_angles` adds the elevations of direction and microphone and
  another pi/2, so that the pattern does not turn with `direction` [C83].
* `MovingPointSource.conv_amp` uses the Mach number away from the origin: wrong reference point and wrong sign [C84].
* `MovingLineSource`: first sample one sample late, `start` counted twice, `conv_amp` only for the last monopole, distances
  at the emission time of the first microphone [C85].

**Inverse and gridless methods**

* `BeamformerGridlessOrth`: with `eva_list` longer than `n` the columns of neighbouring frequencies overlap (results depend on
  the order of the requests) and the last frequency raises IndexError [C86]. `BeamformerAdaptiveGrid.integrate` uses
  `self.result.shape`, which `LazyBfResult` does not have (AttributeError) (reading only).
* `BeamformerGIB`, 'Suzuki': `epsilon = arange(n_iter)` is an integer array, so the regularisation is cut to an integer,
  usually 0; with `beta < 1` the map shows only the points kept for the last mode; no positive eigenvalue gives
  UnboundLocalError [C87]. By default one mode less than microphones is used. 'InverseIRLS' with more channels than points
  calls `A.conj.T` (AttributeError); the scikit-learn methods fit an intercept and drop it (reading only).

**Signals and announced lengths**

* `FiltWNoiseGenerator`: leading zeros of `ma` are dropped by `tf2sos`, the delay they mean is lost [C88]; the delay of the AR part
  is not compensated (reading only).
* `usignal` continues the signal periodically: a sine without a whole number of periods is not reproduced [C89].
* `num_samples` is wrong for TimeConvolve, PointSourceConvolve, BeamformerTime, Mixer with a shorter second source and Average with
  a remainder; PowerSpectra over such an object scales the cross spectral matrix wrongly [C90, C91].
* `PointSourceConvolve`: the documented example (one kernel column, four microphones) is silent except for the first microphone; `loc`
  is part of the digest but has no effect [C91].

**Spectra for further use**

* `CrossPowerSpectra`, calc_mode 'upper' and 'lower': `csm_upper[:, :nc]` keeps the whole matrix, the assignment raises ValueError
  for two or more channels [C92].
* `barspectrum`: edges from rounded centre frequencies overlap (44.54 to 44.90 Hz is in two bands) or leave gaps (35.36 to 35.64 Hz);
  the first band extends below the first line unless 31.5 Hz fits; ValueError for spectra below 35 Hz [C93].

**Weighting and octave filters**

* `FiltFreqWeight`: A and C are the nominal curves with the frequency axis compressed by the bilinear transform; a tone at fs/2 is
  removed, and the gain above about fs/6 is too low [C95].
* `FiltFiltOctave`: the widened edges of octave bands exceed fs/2 for bands that pass the check (default order, band = 0.353 fs), the
  user sees an error of scipy instead [C96].
* `OctaveFilterBank`: centres by base ten, widths by base two, adjacent bands overlap; `sos` has no `depends_on` (it is declared for a
  trait `ba` that does not exist otherwise), so a bank whose `hband` changes keeps its first filters; `digest` depends on `order`,
  which the class does not have [C96].

**Speed of sound, spatial weights**

* `c_air`: the enhancement factor `1.00062 + 3.14e-8 p + 5.6e-7 t^2` is defined for degrees Celsius, the code passes Kelvin: the
  mole fraction of water vapour is 4 to 6 % too high [C97].  Humidities below zero and above 100 %, and negative CO2 contents, pass
  the checks; for a sufficiently negative humidity the result is negative.
* `const_power_weight`: IndexError for arrays with all microphones at one distance (circular arrays); the last edge is calculated
  from `ru` after `ru` was replaced by the midpoints, so the outermost ring gets too little power [C98].  With numpy 2
  `unique(..., return_inverse=True)` of a two-dimensional array gives a two-dimensional inverse, and so two-dimensional weights.

**Cache files, sound card, frequency range**
- Cache mode 'overwrite' with pytables: a second object with the same settings removes the node which the first object still uses; its next request raises ClosedNodeError (`C101_closed_node_refuted`, fbeamform.py:362-412).
- An object that requested a result in mode 'all' keeps its node and writes to the file after the mode is set to 'readonly' (`C101_mode_change_refuted`).
- PowerSpectra recognises a cached matrix by its sum being nonzero: silence (or a failed earlier calculation) is recalculated each time and in 'readonly' raises (`C101_csm_readonly_refuted`, spectra.py:492-538).
- `csm` is the array in the file: assigning to an element changes what later runs read (`C101_csm_assign_refuted`).
- SoundDeviceSamplesGenerator: `overflow` is overwritten for every block, so an overflow is forgotten one block later (`C102_overflow_refuted`); `running` stays True when the generator is closed early (`C102_running_refuted`); `sample_freq` keeps the default rate of the first device (`C102_rate_refuted`). Also: the digest contains neither sample_freq nor precision; result(0) never ends.
- PowerSpectra: the line at half the sampling frequency is never in `indices` unless the upper limit is None (`C103_last_line_refuted`; spectra.py:305-325 searches in `fftfreq[:-1]`), although the comment on `freq_range` only speaks of [lo, hi[; a lower limit above half the sampling frequency with upper limit None selects that very line (`C103_above_refuted`).
- Reading `freq_range` of a new object after `freq_range = (lo, None)` raises IndexError, because the getter asks `_ind_high` instead of `ind_high`; once `ind_high` was set to None the upper limit reads None though a limit is in use (`C103_read_refuted`, spectra.py:291-298). Setting `ind_low` after `freq_range` discards the upper frequency too (`C103_forget_refuted`).

**Eigenvalues, CLEAN on moving grids**
- `synthetic_ev`: a band between two lines delivers the eigenvalues of the line above the band, where synthetic and barspectrum give zero (`C104_empty_band_refuted`); above the last line it raises IndexError (`C104_above_refuted`). The docstring says "averages" but the lines are summed.
- BeamformerCleantTraj: a last block without rows (grid moving away) raises ValueError from `t_float.max(0)`; BeamformerTimeTraj yields an empty block and ends (`C105_end_refuted`, tbeamform.py:461). At rest it delivers one row more than BeamformerCleant from the same data (`C105_rest`).

**Rounding, steering vectors**
- RectGrid: the last point can lie above x_max by one rounding, so `index` (and all that use it) raises ValueError for a point of the grid itself; x_min=-1, x_max=0.1, increment=0.1 (`C108_last_refuted`).
- Trajectory.traj(0.1, 0.4, 0.1) has four positions where the interval has three steps (`C107_arange_refuted`, numpy.arange, trajectory.py:197).
- At 50, 100 and 200 kHz the lines of fftfreq() come out below k fs / n, so synthetic(6250, 0) at 50 kHz with 64 samples delivers the ninth line instead of the eighth (`C109_nominal_refuted`; the code warns).
- SteeringVector.ref = 0 passes the setter but fbeamform.py:211 calls the array grid.pos (`C106_zero_refuted`); one microphone and several grid points fail in calcTransfer because `_r` returns a one-dimensional array (`C106_single_refuted`).

**Files and names**
- CsmAIAABenchmark: the digest consists of the file name without directory (`_csmsum` is never assigned), so a beamformer with `cached` takes the rows of another measurement of the same name from the cache file (`C112_cache_refuted`); PowerSpectraImport.digest leaves out `frequencies`, with the same effect (`C112_frequencies_refuted`). `ind_low`, `ind_high` are ignored (`C112_range_refuted`).
- WriteWAV without a file name: channels [1, 23] and [12, 3] give the same name (`C111_channels_refuted`), as do different processing steps (`C111_origin_refuted`).
- MicGeom.export_mpos does not escape the name of the file (`C110_name_refuted`); reading the exported file into the same object drops further microphones (`C110_again_refuted`); center and aperture are None for microphones at the origin (`C110_origin_refuted`).

**Tones**
- With 'Hanning' the line of a tone at fs/4 holds 2 (bs - 1) / (3 bs) of its mean square, 1.8 dB too little (`C113_hanning`, `C113_window_refuted`): PowerSpectra normalises by the energy of the window, so the level of a tone is right only after summing the neighbouring lines. Documentation of the scaling says nothing of this.

**Simulated source, focused**
- `PointSource` rounds to the nearest sample of the up-sampled signal, `BeamformerTime` interpolates linearly: with `up = 1` and delays of half a sample the highest frequencies vanish (`C114_exact_refuted`); the error is bounded by (up + 1) / 2 steps of the signal (`C114_close`).

**Relations between runs**
- `BeamformerGIB`, 'Suzuki': the integer regularisation (C87) makes the map depend on the unit of the samples (`C115_gib_refuted`).
- `BeamformerEig`, `BeamformerMusic`: with equal eigenvalues the map depends on the basis the library returns (`C116_eig_refuted`, `C116_music_refuted`).

**CLEAN-SC without diagonal removal**

- `BeamformerCleansc` with `r_diag=False` shows a single source too loud. The inner iteration (fbeamform.py:1526-1530) is the one for a matrix whose diagonal is removed, whatever `r_diag` is. The loop adds `damp * hmax` to the clean map but subtracts at most n/(n+1) of it from the data (n microphones). With enough passes the level exceeds the conventional one by more than 1/(2n) of it; with two microphones and default parameters by more than 30 % (`C117_full_partial`, `C117_full_refuted`). With diagonal removal the level is right up to an error of the order n^-20 (`C117_ring`).

**Registering and removing at a SampleSplitter**

- A generator of `SampleSplitter.result` notes the objects to inspect when it starts (process.py:658) and looks them up before every block it fetches. If one of them is removed in between, the generators of all other objects end with a KeyError [C118].
- An object registered while generators run is not inspected by them: with treatment 'error' it can lose blocks without an error [C118].

**Ray tracing**

- `GeneralFlowEnvironment.get_interpolator` (environments.py:886-894) changes the slowness of a ray by `dot(s, -dv.T)`, which is -J s for the Jacobian J that the flow fields report. Rays of sound traced backwards need +J^T s. Both are equal for RotatingFlow, whose Jacobian is antisymmetric, and where the velocity is uniform; in the shear layers of OpenJet and SlotJet they differ everywhere. For example the slowness along a parallel flow should stay (Snell's law) but changes, while the one across it should change but stays. The travel times are affected only to second order in the Mach number [C119].
- The slowness at the start is n0 / (c + v.n0) (line 898); in a flow faster than sound the denominator can be negative and the ray then starts in the opposite direction [C119].
- `SteeringVector.ref` is not moved with the array: shifting `MicGeom` and grid by the same vector changes maps with 'inverse' and 'true level' steering by (r0/r0')^2 per grid point unless `ref` is shifted too. With 'classic' and 'true location' `ref` is without effect on beamforming maps [C120].

**Invalid channels**

- `BeamformerBase._assert_equal_channels` (fbeamform.py:412-416) compares the numbers of channels only; marking different channels in the time data and in `MicGeom` gives a wrong map without an error. `BeamformerTime` and its subclasses have no check at all: if only `MicGeom` is marked, positions are paired with signals of other microphones [C121].

**HDF5 round trip**

- `WriteH5.precision` is 'float32' by default, so a recording made without setting it is not the stream: `2^24 + 1` is read back as `2^24`, values from about `2^128` on as infinity. The loss is exactly rounding to the nearest float32. A stream without samples leaves a file that `TimeSamples` refuses with OSError [C122].

**Accuracy of maps** (C125)

- `_freqBeamformer_FullCSM` and its siblings convert the phase `k*r` to `np.float32` (fastFuncs.py:252). Everything else is double precision, but the map has only the accuracy of the phases: the error is of the order `k*r*2^-24` of the mean autopower, e.g. up to 0.5 % at `k*r = 10000` (this bound is proved), and more than `2^-13` at `k*r = 8192` is reached by a concrete two-microphone case. This limits the dynamic range of maps, in particular with the diagonal removed, at high frequencies and large distances.

**DAMAS and the diagonal** (C126)

- `BeamformerDamas` with `r_diag=True` (the default) removes the diagonal from the matrix and scales the map by n/(n-1)
  (fbeamform.py:1222-1233), but `PointSpreadFunction` knows nothing of the removed diagonal. The linear system that is
  solved is therefore not the one the map obeys: one source on the only grid point, two microphones at distances 1 and 2,
  strength 1, gives 16/25 after any number of sweeps. Without `r_diag` the true strength is found.

**BeamformerDamasPlus** (C127)

- Method 'LP' passes `c = -psf.sum(1)` to linprog (fbeamform.py:1331). The entry psf[t, s] is the map at t of a source at s,
  so the sum of the modelled map is `psf.sum(0) @ x`. With the row sums the true strengths are not optimal unless the
  matrix has equal row and column sums: two sources of strength 1 at different distances give (0, 3.56).
- Method 'LassoLars' leaves `fit_intercept=True`. The intercept takes the constant part of the map and is dropped: for every
  alpha > 0 at least one grid point gets zero, for any data, if some strengths have a constant map; two sources of
  strengths 3 and 5 give (0, 2) in the limit alpha -> 0.
- 'NNLS' minimises the distance of the maps, BeamformerDamas that of the cross-spectral matrices (C126): for a coherent source
  between two points the results differ by a factor of 7.6.

**Cached point spread functions** (C128)

- `calc_psf` in mode 'full' (the default of the DAMAS classes) sets `gp[:] = 1` before it calculates (fbeamform.py:1104-1105).
  If the calculation does not end (MemoryError for a large grid, Ctrl-C, end of the process) the file says that everything is
  there: all later runs read zeros without any message. 'block' has the same order per column; 'single' is right.
- The node of a frequency is `f'Hz_{freq:.2f}'` (1022): frequencies that agree in two decimals share their data, for instance
  0.016 and 0.024 Hz with an array of 43 km (infrasound), where the values differ by a factor of nine.

**DAMAS with 'inverse'** (C129)

- The matrix of type 'inverse' has a unit diagonal but is not symmetric up to scaling. Where the distances of two points differ
  by whole wavelengths at all microphones psf[0,1] psf[1,0] >= 1 for every number of microphones (equality only for constant
  ratios of the distances). DAMAS then returns (0, dirty map) after every number of sweeps: two sources of strength 1 at
  distances (1, 2) and (4, 2), wavelength 1, give (0, 7.25). With 'true level' the strengths are found (C126).

**BeamformerCMF, methods 'FISTA' and 'Split_Bregman'** (C130)

- `alpha` is not multiplied by `unit_mult` (fbeamform.py:1816, 1841), as it is for 'LassoLars' (1806). Results depend on the unit:
  a penalty alpha with unit u acts like alpha / u with unit 1. With the default unit 1e9 every alpha in its range [0, 1] acts like
  at most 1e-9.
- No bound keeps the strengths non-negative, as all other least squares methods of the class do. For a source heard by two
  microphones with opposite signs the only solution is negative.

**BeamformerTimeSq and BeamformerBase** (C131)

- The cross spectral matrix multiplies every line by two for the one-sided spectrum, also the lines at frequency zero and
  at half the sampling frequency, which occur only once in the two-sided one. A sum over all lines of a map therefore
  counts them twice; with them halved it is exactly the mean of the squared time-domain output.
- With r_diag (the default in both classes) BeamformerTimeSq subtracts the autopower but, unlike BeamformerBase, does not
  divide by 1 - 1/M. A single source comes out lower by this factor: 10 lg(1 - 1/M) dB, -0.07 dB for 64 microphones
  and -3 dB for two.

**BeamformerOrth** (C132)

- The value written is eigenvalue / number of channels (fbeamform.py:1453): the mean square of the source over the
  microphones, plus the noise of one channel / number of channels. It is not the pressure at the reference position that
  the other methods deliver for steering types 'true level' and 'inverse'; microphones twice as far away as the
  reference give -6 dB.
- With steering type 'true level' (the default) the map of a component may be largest at another point than the source, and
  all its power is put there.

**Sources with orthogonal transfer vectors** (C133)

- With steering type 'inverse' the map at one source contains part of the power of the others even if their sound pressures
  at the microphones are orthogonal, because the steering vector is not parallel to the transfer vector. With 'true level'
  and 'true location' it does not.

**Diagonal removal with several sources** (C134)

- r_diag = True (the default) removes the powers of all sources from the diagonal, not only the noise, and the factor
  1/(1 - 1/M) restores them for a single source only. A source with orthogonal transfer vector, which without removal has no
  influence at the other sources, lowers their values by about its power / (M - 1), so that a source weaker than the sum
  of the others / (M - 1) is clipped to zero.

**BeamformerClean** (C135)

- The amplitude of a pass is damp times the maximum, without division by the point spread function there (commented out in
  fbeamform.py:1659). For 'true location' its value is A/M, the mean of (r0/r)^2. With a reference further away than the microphones
  damp A/M exceeds one, the first pass overshoots and the loop stops with a strength that is too large; with a closer
  reference the convergence is slower by the same factor.
- With 'true level' (the default) power may be assigned to points without source, for every damp and n_iter, even for one source.

**Independent sounds** (C136)

- Without removal of the diagonal independent sounds add in BeamformerBase; BeamformerFunctional (gamma >= 1) and BeamformerCapon
  give at least the sum, so that levels of these methods must not be added over separate measurements.
- BeamformerFunctional with gamma < 1, allowed by the trait, may show less when a source is added. So does r_diag = True.

**Errors of the cross spectral matrix** (C137)

- BeamformerEig selects eigenvectors by the order of the eigenvalues: with two nearly equal eigenvalues the map of one component is
  exchanged by an arbitrarily small error. BeamformerCapon amplifies the error by 1 / (smallest eigenvalue).

**Parts of a measurement** (C138)
- Averaging cross spectral matrices and averaging maps agree only for BeamformerBase with the full matrix.
- With `r_diag=True` the map of the averaged matrix is at most the averaged map and may be 0 where the averaged map is not (`C138_removed_refuted`): the clipping acts on every part.
- For BeamformerFunctional (gamma >= 1) and BeamformerCapon the map of the averaged matrix is at least the averaged map; strict in `C138_functional_refuted` and `C138_capon_refuted`.

**Rotation**

* `Trigger`: edges ('rect') in the first 2048 samples are reported one sample early; the warning about uneven peaks needs
  a source with `start`; the guessed threshold is relative to the mean but compared with the raw signal [C69].
* `AngleTracker`: wrong with several triggers per revolution; errors with few peaks or when the speed rises [C70].
* `SpatialInterpolator*`: `Q` ignored for virtual angles [C71]; `SpatialInterpolatorRotation.result` calls an array (TypeError);
  inverse distance weighting requires as many virtual as real microphones or one [C123].
* Inverse distance weighting sets the z coordinate of virtual microphones to zero (tprocess.py:1079) but keeps that of the
  real ones: for an array outside the plane z = 0 all distances contain its height, the nearest microphone is never
  'closer than a millimetre', and even with identical arrays and no rotation the channels are mixed [C123].
* `SpatialInterpolator._get_virtNewCoord` is a cached property without a Property of that name: the Property declared at
  tprocess.py:734 is replaced by the method of the same name (766). The coordinates of the first sample are used for ever;
  new `mics`, `mics_virtual`, `Q` are ignored without an error [C124].
* `cylToCart(x, Q)` applies Q to (phi, r, z), not to a Cartesian vector [C47].

## 5. Wrong programs

`seeded/LOG.jsonl` lists the edits of the model that were tried (in a scratch copy), the property each one breaks, the
theorems whose proofs break and, where a first version of a theorem missed the edit, the theorem that was tightened.

How to read the log:

- `theorems_failed` are the theorems whose proof fails after the edit or uses a lemma whose proof fails. The broken proof
  does not by itself show that the statement is false after the edit: a theorem may be listed only because it shares a
  lemma with one that the edit falsifies (e.g. `C138_functional_refuted` in s800, which does not depend on the clipping).
- Only the files needed for the property named in `claim` are rebuilt; other properties may break as well.
- `claim` was chosen by reading the statement, it is not machine-checked that its statement is false after the edit.
- For an edit that was tried again after a theorem was tightened, only the last run is listed, with the theorem.
- Edits after which the model or a statement is ill-typed are not listed (4), they test nothing.
- The automatic screening (random replacements of operators and constants in definitions) is not listed. Some of its
  survivors showed a gap; these were repeated by hand and have an entry with a note. The other survivors were only read.
