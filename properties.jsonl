{"id": "C01", "title": "TimeSamples.result delivers the data exactly once, in full blocks", "statement": "For every non-empty data array and every num>=1, TimeSamples.result(num) yields blocks whose concatenation is the data (each channel multiplied by its calibration factor when a matching calibration is attached); every block has exactly num rows except possibly the last, and no block is empty. With no samples it raises OSError; with a calibration of the wrong size it raises ValueError before yielding anything.", "quantifier": "all data lengths, channel counts, sample values, block sizes num>=1, all calibrations", "why_tests_cant": "Off-by-one block errors depend on num_samples mod num; only finitely many combinations can be tried.", "anchors": ["acoular/sources.py: TimeSamples.result"]}
{"id": "C02", "title": "MaskedTimeSamples.result delivers exactly data[start:stop] on the valid channels", "statement": "For every start/stop (Python slice semantics, negative and None included) and every list of invalid channels that leaves a channel, MaskedTimeSamples.result(num) yields, in full blocks, exactly the rows of the slice restricted to the channels that are not invalid, in order; an empty slice raises OSError; calibration factors are applied to the right channels both when the calibration covers all channels and when it covers only the valid ones.", "quantifier": "all data, starts, stops, invalid-channel lists, calibrations, block sizes num>=1", "why_tests_cant": "The interaction of slice normalisation, channel masking and block boundaries has unboundedly many cases.", "anchors": ["acoular/sources.py: MaskedTimeSamples.result, MaskedTimeSamples.channels, MaskedTimeSamples.num_samples"]}
{"id": "C03", "title": "Pipelines are independent of the block size", "statement": "For any chain of sample-wise or causal processing blocks on top of a well-behaved source, the concatenated output does not depend on num, and the blocks are again full except possibly the last.", "quantifier": "all chains (any depth), all streams, all pairs of block sizes", "why_tests_cant": "A test fixes one chain and a few block sizes; the claim is an induction over chains and streams.", "anchors": ["acoular/base.py: Generator.result, InOut", "acoular/tprocess.py", "acoular/process.py", "acoular/calib.py: Calib.result"]}
{"id": "C04", "title": "MaskedTimeOut.result re-blocks exactly stream[start:stop] on the valid channels", "statement": "For a source delivering a stream of N rows in full blocks, for every start, stop and num>=1 and at least one valid channel, MaskedTimeOut.result(num) yields in full blocks exactly rows start..stop-1 on the valid channels, no row lost, duplicated or reordered; an empty selection raises OSError.", "quantifier": "all streams, start/stop values, channel masks and block sizes", "why_tests_cant": "The code keeps a partially filled buffer whose behaviour depends on start mod num, stop mod num and N mod num; exhaustive testing over all residues and lengths is impossible.", "anchors": ["acoular/tprocess.py: MaskedTimeOut.result"]}
{"id": "C05", "title": "Mixer.result is the sample-wise sum of all its sources", "statement": "For any number of sources with equal channel counts, Mixer.result(num) yields in full blocks the sum over sources, sample by sample, over the common length (the shortest source), for every num.", "quantifier": "all numbers of sources, stream lengths, values and block sizes", "why_tests_cant": "The result depends on the alignment of exhausted generators; unbounded in sources and lengths.", "anchors": ["acoular/tprocess.py: Mixer.result, Mixer.validate_sources"]}
{"id": "C06", "title": "TimeReverse.result is the exact time reversal", "statement": "For every non-empty stream and num>=1, TimeReverse.result(num) yields in full blocks the source samples in reverse order.", "quantifier": "all streams and block sizes", "why_tests_cant": "Two-phase re-blocking with a short last source block; depends on N mod num for all N.", "anchors": ["acoular/tprocess.py: TimeReverse.result"]}
{"id": "C07", "title": "Running averages and filters keep their state across block boundaries", "statement": "TimeCumAverage's k-th output row is the mean of source rows 0..k, and a Filter's output equals the filter run over the whole stream at once, whatever the block size.", "quantifier": "all streams, filters (any number of second-order sections) and block sizes", "why_tests_cant": "Errors at block boundaries appear only for particular block sizes and lengths; the claim is an induction on blocks.", "anchors": ["acoular/tprocess.py: TimeCumAverage.result, Filter.result, TimePower.result, TimeExpAverage"]}
{"id": "C08", "title": "Average.result yields exactly the means of consecutive groups", "statement": "Average.result(num)'s output row k is the mean of source rows k*n..(k+1)*n-1 for every complete group and nothing else, for every num, and the number of rows equals the reported num_samples.", "quantifier": "all streams, averaging lengths, block sizes", "why_tests_cant": "Whether the trailing incomplete group is dropped consistently depends on N mod (n*num).", "anchors": ["acoular/process.py: Average.result, Average.num_samples"]}
{"id": "C09", "title": "SamplesBuffer.result delivers exact sliding windows", "statement": "For buffer length, result length and shift mode as configured by the library's users, SamplesBuffer.result(num) yields the windows stream[k*shift : k*shift+result_num] for consecutive k, never a row out of place, and ends exactly when the stream cannot fill another window (yielding the rest when available).", "quantifier": "all streams, buffer lengths, result lengths, shifts, block sizes", "why_tests_cant": "Ring-buffer index arithmetic over an unbounded sequence of appends and reads.", "anchors": ["acoular/process.py: SamplesBuffer.result, SamplesBuffer._write_to_buffer, SamplesBuffer.increase_buffer"]}
{"id": "C10", "title": "Power spectra average over exactly the advertised frames", "statement": "The frames used for the cross spectral matrix are exactly stream[k*inc : k*inc+block_size] for every k with the frame inside the stream, and the normalisation count num_blocks equals the number of these frames.", "quantifier": "all stream lengths, block sizes, overlaps and source block sizes", "why_tests_cant": "Depends on N modulo block size and overlap; only a handful of lengths is ever tested.", "anchors": ["acoular/spectra.py: BaseSpectra._get_source_data, PowerSpectra.num_blocks, PowerSpectra._get_csm"]}
{"id": "C11", "title": "RFFT.result yields one spectrum per frame and nothing else", "statement": "RFFT.result(num) yields exactly one spectrum per complete frame of the source, in order, grouped in full blocks of num, for every num; no spectrum is invented or lost.", "quantifier": "all streams, frame sizes, overlaps, num", "why_tests_cant": "Tail handling depends on the number of frames modulo num.", "anchors": ["acoular/fprocess.py: RFFT.result"]}
{"id": "C12", "title": "TimeConvolve.result is the linear convolution of signal and kernel", "statement": "For every kernel length L and stream length M, TimeConvolve.result(num) yields, in full blocks, the M+L-1 samples of the linear convolution, independent of num.", "quantifier": "all kernels, streams and block sizes", "why_tests_cant": "Partitioned convolution is exact or wrong depending on L versus num and (L+M-1) mod num.", "anchors": ["acoular/tprocess.py: TimeConvolve.result, _append_to_fdl, _spectral_sum"]}
{"id": "C13", "title": "FilterBank.result processes streams of any length", "statement": "For every stream and num, FilterBank.result(num) yields every source sample filtered by every band, with as many rows as the source.", "quantifier": "all streams, bands, block sizes", "why_tests_cant": "Fails only when the stream length is not a multiple of the block size.", "anchors": ["acoular/tprocess.py: FilterBank.result"]}
{"id": "C14", "title": "WriteH5.result records exactly the requested prefix and passes blocks through unchanged", "statement": "WriteH5.result(num) yields a prefix of the source blocks unchanged (all of them without limit and interruption), and the file receives exactly the first min(total, num_samples_write) rows (all rows when num_samples_write is -1), for every num; if the write flag is cleared after some block, the file holds exactly the rows passed on so far. After every yield the flushed file is consistent with what was yielded. WriteH5.save stores the whole stream.", "quantifier": "all streams, block sizes, limits and stop points", "why_tests_cant": "The write limit is compared against a running count at block granularity; depends on limit mod num.", "anchors": ["acoular/tprocess.py: WriteH5.result, WriteH5.save"]}
{"id": "C15", "title": "WriteWAV never clips", "statement": "For every signal that is not silent on the selected channels, the 16-bit values WriteWAV writes are the selected channels, in order, scaled so that the peak becomes +-29491 and truncated; they lie within the int16 range and the scaling is monotone. (A silent signal has no defined scale, an empty source raises ZeroDivisionError.)", "quantifier": "all signals and channel selections", "why_tests_cant": "A bound over all real inputs; the scaling uses the global maximum.", "anchors": ["acoular/tprocess.py: WriteWAV.save"]}
{"id": "C16", "title": "The block cache always returns the source's data, whatever happened before", "statement": "For every caching mode, every history of complete, abandoned and crashed reads, every Cache.result(num) yields exactly the source's stream in full blocks, and the cache file always holds a prefix of the source's stream, marked complete only if it is the whole stream.", "quantifier": "all histories of reads (complete, abandoned at any block, crashed), all modes, all block sizes per read", "why_tests_cant": "Unbounded histories and crash points.", "anchors": ["acoular/process.py: Cache.result, _write_data_to_cache, _get_data_from_cache, _get_data_from_incomplete_cache"]}
{"id": "C17", "title": "SampleSplitter gives every registered consumer the same complete stream", "statement": "For every number of consumers and every schedule of next() calls, each registered consumer receives the source's blocks in order without loss or duplication, unless a buffer overflow is reported to it (as error or warning, as configured); an unregistered consumer gets an error.", "quantifier": "all schedules, numbers of consumers, buffer sizes and overflow policies", "why_tests_cant": "Quantifies over all interleavings of unboundedly many calls.", "anchors": ["acoular/process.py: SampleSplitter.result, _fill_block_buffers, register_object, remove_object"]}
{"id": "C18", "title": "SourceMixer.result is the weighted sum of its sources", "statement": "For every list of sources with equal sample rate, length and channel count and every weight list of matching length, SourceMixer.result(num) yields in full blocks the weighted sum; mismatching sources raise ValueError before any output.", "quantifier": "all source lists, weights, lengths, block sizes", "why_tests_cant": "Unbounded number of sources and lengths.", "anchors": ["acoular/sources.py: SourceMixer.result, SourceMixer.validate_sources"]}
{"id": "C19", "title": "UncorrelatedNoiseSource delivers exactly num_samples rows in full blocks", "statement": "For every signal length and num>=1 the blocks concatenate to the complete noise matrix, full except the last, none empty.", "quantifier": "all lengths and block sizes", "why_tests_cant": "while/else chunking whose final part depends on length mod num.", "anchors": ["acoular/sources.py: UncorrelatedNoiseSource.result"]}
{"id": "C20", "title": "PointSource.result delivers exactly num_samples rows with the right delays", "statement": "For every geometry, start times and pre-padding mode, PointSource.result(num) yields exactly num_samples rows in blocks of num (last one shorter), row n channel m being the up-sampled signal at the delayed index divided by the distance (zero before the signal starts, when zero pre-padding is used), independent of num.", "quantifier": "all delays, start offsets, signal lengths, up-sampling factors, block sizes", "why_tests_cant": "The number of pre-padding blocks depends on the smallest delay index divided by the block length; boundary cases unbounded.", "anchors": ["acoular/sources.py: PointSource.result, _fill_mic_signal_block"]}
{"id": "C21", "title": "Moving, dipole and line sources never yield an empty block", "statement": "For every num_samples and num, the sample loop of MovingPointSource, SphericalHarmonicSource, PointSourceDipole, MovingPointSourceDipole, LineSource and MovingLineSource yields full blocks, a shorter non-empty last block, and exactly num_samples rows (or as many as the signal allows).", "quantifier": "all lengths and block sizes", "why_tests_cant": "An extra empty block appears only when num divides num_samples.", "anchors": ["acoular/sources.py: MovingPointSource.result, SphericalHarmonicSource.result, PointSourceDipole.result, LineSource.result"]}
{"id": "C22", "title": "Reading a source twice gives the same samples", "statement": "Calling result() again on a LineSource or MovingLineSource gives the same samples, and each monopole radiates with the strength given for it.", "quantifier": "all numbers of monopoles and strength lists, all numbers of repeated calls", "why_tests_cant": "State accumulates over calls; a test sees one call.", "anchors": ["acoular/sources.py: LineSource.result, MovingLineSource.result"]}
{"id": "C23", "title": "GenericSignalGenerator repeats or zero-pads its source exactly", "statement": "signal()[k] equals amplitude*source[k mod L] when loop_signal is set, and amplitude*source[k] for k<L and 0 beyond it otherwise, for every source length L>=1 and every requested length.", "quantifier": "all source lengths, requested lengths and block structures", "why_tests_cant": "Relation between internal block 1024, source length and requested length has unboundedly many cases.", "anchors": ["acoular/signals.py: GenericSignalGenerator.signal"]}
{"id": "C24", "title": "return_result collects exactly the first nmax samples", "statement": "return_result(source, nmax, num) equals the first nmax rows of a non-empty stream (all rows for nmax<=0), independent of num, and pulls no block that starts after these rows; an empty stream raises ValueError.", "quantifier": "all streams, nmax, num", "why_tests_cant": "Depends on nmax mod num and on the stream length.", "anchors": ["acoular/tools/helpers.py: return_result"]}
{"id": "C25", "title": "Processing blocks do not modify their source's data", "statement": "Running a Mixer, SourceMixer or BeamformerTime over in-memory TimeSamples leaves the user's data array unchanged, so a second run gives the same result.", "quantifier": "all data, block sizes, numbers of runs", "why_tests_cant": "In-place operations on views corrupt data silently; visible only on later reads.", "anchors": ["acoular/tprocess.py: Mixer.result", "acoular/sources.py: SourceMixer.result, TimeSamples.result", "acoular/tbeamform.py: BeamformerTime.result"]}
{"id": "C26", "title": "A yielded block keeps its contents while the generator continues", "statement": "A block obtained from result(num) still holds the same values after further blocks have been requested, so list(result(num)) is the stream.", "quantifier": "all streams, block sizes, generators", "why_tests_cant": "Buffer reuse shows only when blocks are kept; the number of blocks is unbounded.", "anchors": ["acoular/tprocess.py: MaskedTimeOut.result, TimeReverse.result, FilterBank.result", "acoular/sources.py: PointSource.result", "acoular/fprocess.py: RFFT.result"]}
{"id": "C27", "title": "Different configurations have different digests", "statement": "Two objects of one class whose digest-relevant settings differ have different digests (assuming the hash is collision free), so cached results are never mixed up.", "quantifier": "all pairs of configurations", "why_tests_cant": "Injectivity over an infinite set of configurations.", "anchors": ["acoular/internal.py: digest, ldigest", "acoular/sources.py: MaskedTimeSamples.digest, TimeSamples.digest"]}
{"id": "C28", "title": "Derived properties are always up to date", "statement": "After any history of attribute assignments and property reads, reading a derived property (grid positions, frequency index range, digests, steering distances) returns the value computed from the current attributes.", "quantifier": "all histories of assignments and reads", "why_tests_cant": "Staleness needs a specific read-write-read order; histories are unbounded.", "anchors": ["acoular/grids.py: RectGrid._get_pos", "acoular/spectra.py: PowerSpectra.freq_range, ind_low, ind_high", "acoular/sources.py: TimeSamples.digest", "acoular/environments.py: GeneralFlowEnvironment._r", "acoular/microphones.py: MicGeom.pos"]}
{"id": "C29", "title": "The HDF5 cache opens each file once and closes it when the last user leaves", "statement": "For every sequence of requests by any number of objects, the registry keeps one open handle per file, its reference count equals the number of objects using it, it is closed exactly when the count reaches zero, and no request can block later requests forever.", "quantifier": "all sequences of requests and file switches", "why_tests_cant": "Histories of requests are unbounded, and the defect appears only in a particular order.", "anchors": ["acoular/h5cache.py: HDF5Cache.get_cache_file, _decrease_file_reference_counter"]}
{"id": "C30", "title": "The cross spectral matrix is Hermitian and positive semidefinite", "statement": "For every number of frames, channels and sample values the cross spectral matrix is Hermitian, its diagonal is real and non-negative, every quadratic form with it is non-negative, and entry (r,c) is the average of X_r conj(X_c) over the frames, for all r and c although only one triangle is computed.", "quantifier": "all frame counts, channel counts, spectra", "why_tests_cant": "Algebraic statement over all complex matrices of all sizes.", "anchors": ["acoular/fastFuncs.py: calcCSM", "acoular/spectra.py: PowerSpectra.calc_csm"]}
{"id": "C31", "title": "The frequency-domain beamformer evaluates the quadratic form of the CSM", "statement": "For every Hermitian CSM, steering type, geometry and grid point, the map value of the triangular kernel equals h^H C h with the full matrix; without diagonal removal and for a CSM obtained from data the value is non-negative.", "quantifier": "all sizes, CSMs, geometries, wave numbers, steering types", "why_tests_cant": "Algebraic identity over all matrices of all sizes.", "anchors": ["acoular/fastFuncs.py: _freqBeamformer_FullCSM, beamformerFreq"]}
{"id": "C32", "title": "Diagonal removal makes the map independent of the CSM diagonal", "statement": "With r_diag the map is the same for any two CSMs that differ only on the main diagonal, and is never negative; without r_diag no value is clipped.", "quantifier": "all CSMs, geometries, sizes", "why_tests_cant": "Universal statement over matrices.", "anchors": ["acoular/fastFuncs.py: _freqBeamformer_FullCSM", "acoular/fbeamform.py: BeamformerBase._calc, sig_loss_norm"]}
{"id": "C33", "title": "The eigenvalue beamformer agrees with the full-matrix beamformer", "statement": "If the CSM is the sum of eigenvalue-weighted outer products of the eigenvectors, then the eigenvalue kernel gives the same map as the full-matrix kernel, with and without diagonal removal, for every steering type; so the maps of BeamformerEig for all single components add up to the full map, and BeamformerFunctional with gamma=1 equals BeamformerBase.", "quantifier": "all sizes, decompositions, steering types", "why_tests_cant": "Algebraic identity over all sizes.", "anchors": ["acoular/fastFuncs.py: _freqBeamformer_EigValues", "acoular/fbeamform.py: BeamformerEig, BeamformerFunctional"]}
{"id": "C34", "title": "Fast steering path and explicit steering vectors agree", "statement": "For each of the four steering types, the kernel that works from distances gives the same map as the kernel given the explicit steering vectors of SteeringVector.steer_vector.", "quantifier": "all geometries, wave numbers, microphone counts, CSMs", "why_tests_cant": "Equality of two formula families over all geometries.", "anchors": ["acoular/fastFuncs.py", "acoular/fbeamform.py: SteeringVector.steer_vector, transfer, _beamformer_params"]}
{"id": "C35", "title": "A single source is mapped with its true level or at its true location, as the steering type promises", "statement": "For a CSM produced by one monopole at a grid point: 'true level' and 'inverse' give exactly its squared pressure at that point; 'true location' and 'classic' give a map whose maximum over all grid points is at that point.", "quantifier": "all geometries, wave numbers, microphone counts, grids", "why_tests_cant": "Optimality (Cauchy-Schwarz) over all geometries cannot be sampled.", "anchors": ["acoular/fastFuncs.py: _freqBeamformer_FullCSM, _psf_*", "acoular/fbeamform.py: SteeringVector"]}
{"id": "C36", "title": "The point spread function is the map of a unit source, independent of the calculation mode", "statement": "PointSpreadFunction.psf column j equals the beamformer map of a unit monopole at grid_indices[j], for every calcmode ('single','block','full') and every set of indices, whatever was calculated before.", "quantifier": "all grids, index sets, calculation modes, histories", "why_tests_cant": "Depends on which indices were calculated before; unbounded histories and index sets.", "anchors": ["acoular/fbeamform.py: PointSpreadFunction.calc_psf, _get_psf", "acoular/fastFuncs.py: calcPointSpreadFunction"]}
{"id": "C37", "title": "DAMAS yields non-negative maps and keeps an exact solution", "statement": "After at least one sweep the Gauss-Seidel solver's result is non-negative for every PSF, map and damping; a non-negative exact solution of A x = y with unit-diagonal A is left unchanged by any number of sweeps.", "quantifier": "all matrices, right-hand sides, sweep counts", "why_tests_cant": "Invariant over iterations and matrices of any size.", "anchors": ["acoular/fastFuncs.py: damasSolverGaussSeidel", "acoular/fbeamform.py: BeamformerDamas._calc"]}
{"id": "C38", "title": "CLEAN conserves the residual and terminates", "statement": "For every dirty map and PSF, BeamformerClean stops after at most max(1, n_iter) iterations, and at the end the residual equals dirty map minus PSF times clean map; the clean map is non-negative if the dirty map has a non-negative maximum.", "quantifier": "all maps, PSFs, dampings, iteration limits", "why_tests_cant": "Loop invariant for unbounded iteration.", "anchors": ["acoular/fbeamform.py: BeamformerClean._calc"]}
{"id": "C39", "title": "CLEAN-SC keeps map and CSM consistent", "statement": "In every iteration of CLEAN-SC the current dirty map is the beamformer map of the current degraded CSM.", "quantifier": "all CSMs, iteration counts, damping values", "why_tests_cant": "Loop invariant relating two updates by linearity; unbounded iterations.", "anchors": ["acoular/fbeamform.py: BeamformerCleansc._calc"]}
{"id": "C40", "title": "Beamforming results do not depend on the order of access", "statement": "For any sequence of index and slice accesses to result, the values returned equal the map computed for these frequencies from scratch.", "quantifier": "all sequences of accesses, all index kinds (positive, negative, slices)", "why_tests_cant": "Lazy evaluation with flags; histories unbounded and negative indices need separate handling.", "anchors": ["acoular/fbeamform.py: LazyBfResult.__getitem__, BeamformerBase._get_result, _calc, BeamformerOrth._calc"]}
{"id": "C41", "title": "Band synthesis partitions the spectrum", "statement": "synthetic(f,num) sums exactly the frequency lines with f1<=freq<f2; adjacent bands share no line and lose none, and the helper function gives the same values as the method.", "quantifier": "all sorted frequency lists, band limits, data", "why_tests_cant": "Boundary behaviour for every position of lines relative to band edges.", "anchors": ["acoular/fbeamform.py: BeamformerBase.synthetic", "acoular/tools/helpers.py: synthetic"]}
{"id": "C42", "title": "Sector integration sums exactly the points inside the sector", "statement": "integrate sums exactly the map values at grid points the sector contains, is additive for disjoint sectors, and gives the same value on a freshly created beamformer as on one whose result has been read.", "quantifier": "all maps, grids, sectors, histories", "why_tests_cant": "Depends on state and on all possible sectors.", "anchors": ["acoular/fbeamform.py: BeamformerBase.integrate, integrate", "acoular/grids.py: Grid.subdomain"]}
{"id": "C43", "title": "RectGrid.index returns a valid index of the nearest grid point", "statement": "For every x,y inside the grid limits, RectGrid.index and RectGrid3D.index return indices within shape, of the grid point nearest to the query.", "quantifier": "all limits, increments, query points", "why_tests_cant": "Rounding boundary cases over the reals.", "anchors": ["acoular/grids.py: RectGrid.index, RectGrid._get_nxsteps, RectGrid._get_pos, RectGrid3D.index"]}
{"id": "C44", "title": "Sectors contain exactly the points they describe", "statement": "RectSector, RectSector3D, CircSector mark exactly the points within the (tolerance-widened or narrowed) region, independent of the order of the limits; MultiSector is the union; if no point is inside and default_nearest is set, exactly the point nearest to the sector's centre is marked.", "quantifier": "all sectors, point sets, tolerances", "why_tests_cant": "Universal over point sets and limits.", "anchors": ["acoular/grids.py: RectSector.contains, RectSector3D.contains, CircSector.contains, PolySector.contains, ConvexSector.contains, MultiSector.contains"]}
{"id": "C45", "title": "Uniform flow distances solve the convected propagation equation", "statement": "For |M|<1 and distinct points, UniformFlowEnvironment's distance r is the unique positive solution of |m-g-M r f| = r; for M=0 it is the Euclidean distance of Environment.", "quantifier": "all positions, Mach numbers below one, flow directions", "why_tests_cant": "Real-analytic identity over all geometries.", "anchors": ["acoular/environments.py: UniformFlowEnvironment._r, Environment._r, dist_mat"]}
{"id": "C46", "title": "Flow fields report the true Jacobian", "statement": "The Jacobian matrix returned by RotatingFlow.v, OpenJet.v and SlotJet.v is the derivative of the returned velocity field at every point where the field is differentiable.", "quantifier": "all positions and parameters", "why_tests_cant": "Derivative statement over the reals.", "anchors": ["acoular/environments.py: RotatingFlow.v, OpenJet.v, SlotJet.v"]}
{"id": "C47", "title": "Cylindrical and Cartesian conversions are inverse to each other", "statement": "cylToCart(cartToCyl(x)) = x for every point.", "quantifier": "all points", "why_tests_cant": "Universal over the reals.", "anchors": ["acoular/environments.py: cartToCyl, cylToCart"]}
{"id": "C48", "title": "Ray directions are unit vectors around the requested direction", "statement": "spiral_sphere returns unit vectors and its first vector is the requested (normalised) direction b.", "quantifier": "all N, solid angles up to 4 pi, directions", "why_tests_cant": "Universal over the reals.", "anchors": ["acoular/environments.py: spiral_sphere"]}
{"id": "C49", "title": "Metric evaluation uses non-overlapping sectors and leaves the data unchanged", "statement": "With adaptive_sector_size the integration circles of different target positions never overlap, and computing any metric leaves the data unchanged, so metrics can be computed in any order.", "quantifier": "all target positions, radii, data, orders of calls", "why_tests_cant": "Universal over geometries and call histories.", "anchors": ["acoular/tools/metrics.py: MetricEvaluator._get_sector_radii, _integrate_sectors"]}
{"id": "C50", "title": "BeamformerTime is a block-size independent delay-and-sum", "statement": "For every source length and num, BeamformerTime.result(num) yields exactly num_samples - max_delay output rows, row n being the weighted sum of the linearly interpolated, delayed channel signals, independent of num.", "quantifier": "all streams, delays, weights, block sizes", "why_tests_cant": "Depends on stream length modulo num versus the largest delay, and on overlap of buffer windows.", "anchors": ["acoular/tbeamform.py: BeamformerTime.result", "acoular/tfastfuncs.py: _delayandsum4"]}
{"id": "C51", "title": "Time-domain delay kernels never read outside their input", "statement": "For every set of delays and every block the compiled delay-and-sum kernel only reads sample indices inside the block it is given.", "quantifier": "all delays, block lengths, grid sizes", "why_tests_cant": "Out-of-bounds reads are silent in the compiled kernel.", "anchors": ["acoular/tfastfuncs.py: _delayandsum4", "acoular/tbeamform.py: BeamformerTime.result"]}
{"id": "C52", "title": "IntegratorSectorTime is independent of the block size", "statement": "The integrated sector time series does not depend on num.", "quantifier": "all maps, clipping values, block sizes", "why_tests_cant": "Per-block statistics make the result depend on block boundaries.", "anchors": ["acoular/tbeamform.py: IntegratorSectorTime.result"]}
{"id": "C53", "title": "Trajectory.traj covers exactly the requested interval", "statement": "traj(t_start,t_end,dt) yields positions at t_start, t_start+dt, ... below t_end for every t_start and t_end.", "quantifier": "all start and end times", "why_tests_cant": "Falsy argument values such as 0.0 are a boundary case tests skip.", "anchors": ["acoular/trajectory.py: Trajectory.traj"]}
{"id": "C54", "title": "Calib scales each channel by its factor or refuses", "statement": "Calib.result(num) yields source rows multiplied channel-wise by the factors of the valid channels, and raises ValueError before any output when the number of factors does not match the source's channels.", "quantifier": "all streams, factors, invalid lists, block sizes", "why_tests_cant": "Universal over shapes and streams.", "anchors": ["acoular/calib.py: Calib.result, Calib.__validate_data"]}
{"id": "C55", "title": "MicGeom removes exactly the invalid channels", "statement": "pos consists of exactly the columns of pos_total whose index is not in invalid_channels, in order; num_mics is their number.", "quantifier": "all geometries and invalid lists", "why_tests_cant": "Universal over index lists.", "anchors": ["acoular/microphones.py: MicGeom.pos, num_mics"]}
{"id": "C56", "title": "Deprecated names are faithful aliases", "statement": "Reading or writing a deprecated name has exactly the effect of the new name, for any history of accesses; read-only aliases refuse writes.", "quantifier": "all histories, alias tables", "why_tests_cant": "Histories unbounded.", "anchors": ["acoular/deprecation.py: deprecated_alias"]}
{"id": "C57", "title": "Imported cross spectral matrices are identified by their contents", "statement": "After assigning a new csm to PowerSpectraImport, its digest reflects the new matrix.", "quantifier": "all histories of assignments", "why_tests_cant": "Lagging digests need a two-assignment history.", "anchors": ["acoular/spectra.py: PowerSpectraImport._set_csm"]}
{"id": "C58", "title": "Pink noise synthesis never fails on array shapes", "statement": "For every signal length >=1, seed and depth, PNoiseGenerator.signal returns num_samples samples without a shape error.", "quantifier": "all lengths and depths", "why_tests_cant": "Power-of-two index arithmetic over all lengths.", "anchors": ["acoular/signals.py: PNoiseGenerator.signal"]}
{"id": "C59", "title": "Sound pressure levels are monotone and floored", "statement": "L_p is monotone, equals 10 lg(x/4e-10) for x above the floor and never falls below -350 dB.", "quantifier": "all real inputs", "why_tests_cant": "Universal over the reals.", "anchors": ["acoular/fbeamform.py: L_p"]}
{"id": "C60", "title": "Component selection is always valid", "statement": "For every n (positive, negative, too large) and microphone count >=1, BeamformerEig selects an index within 0..num_mics-1, equal to Python indexing when n is in range; BeamformerOrth's map sums to the selected eigenvalues divided by the channel count.", "quantifier": "all n, microphone counts, eigenvalue lists", "why_tests_cant": "Universal over integers.", "anchors": ["acoular/fbeamform.py: BeamformerEig._get_na, BeamformerOrth._calc"]}
{"id": "C61", "title": "RFFT.num_samples is the number of spectra delivered", "statement": "For every source length, block size and overlap, RFFT.num_samples equals the number of spectra that RFFT.result delivers.", "quantifier": "all source lengths, block sizes, overlaps", "why_tests_cant": "Depends on the source length modulo block size and hop; a test sees a few lengths and usually no overlap.", "anchors": ["acoular/fprocess.py: RFFT.num_samples, RFFT.result", "acoular/spectra.py: BaseSpectra._get_source_data"]}
{"id": "C62", "title": "Moving sources use the retarded time", "statement": "For every trajectory slower than a third of the speed of sound, the emission time found by the Newton iteration of MovingPointSource (and the moving dipole and line sources) solves te + r(te)/c = t within a small multiple of 0.1 up-sampled intervals, or what the iteration limit leaves.", "quantifier": "all trajectories, microphone positions, receiving times", "why_tests_cant": "Universal over trajectories; the iteration uses an inexact derivative, so that it converges at all has to be proved.", "anchors": ["acoular/sources.py: MovingPointSource.result, MovingPointSourceDipole.get_emission_time, MovingLineSource.get_emission_time"]}
{"id": "C63", "title": "A moving source at rest is the fixed source", "statement": "A MovingPointSource whose trajectory stays at one point delivers exactly the samples of a PointSource with the same signal, location, start and start_t.", "quantifier": "all signals, distances, start times, block sizes", "why_tests_cant": "Relates two independent implementations for every setting.", "anchors": ["acoular/sources.py: MovingPointSource.result, PointSource.result"]}
{"id": "C64", "title": "IRFFT inverts RFFT", "statement": "With the rectangular window, no overlap and scaling 'none', IRFFT(source=RFFT(source=s)).result(num) yields, for every num, the first num_samples rows of s, where num_samples is IRFFT's reported value; with another window each block comes back multiplied by the window over its root mean square.", "quantifier": "all streams, block sizes of the transform and of the output, windows", "why_tests_cant": "The re-blocking by SamplesBuffer, the flattening order of the spectra and the scaling interact; tests use one size.", "anchors": ["acoular/fprocess.py: RFFT.result, RFFT._scale, IRFFT.result", "acoular/process.py: SamplesBuffer"]}
{"id": "C65", "title": "Power spectra preserve the signal power", "statement": "The sum over the frequency bins of AutoPowerSpectra over RFFT (scaling 'none') is the mean square of the frame, and the 'psd' scaling integrates over frequency to the same value.", "quantifier": "all frames, block sizes and channel counts", "why_tests_cant": "Needs Parseval's identity for all lengths; tests check against stored numbers.", "anchors": ["acoular/fprocess.py: AutoPowerSpectra._get_scaling_value, AutoPowerSpectra.result, RFFT._scale"]}
{"id": "C66", "title": "Polygon.is_inside is the signed distance to the polygon", "statement": "For a polygon and a point, Polygon.is_inside raises no exception and returns the distance to the boundary, positive inside and negative outside, zero within smalld.", "quantifier": "all polygons, all points", "why_tests_cant": "a test checks some polygons and points; the claim covers every geometry including points equally near to two sides", "anchors": ["acoular/grids.py: Polygon.__init__, Polygon.is_inside"]}
{"id": "C67", "title": "BeamformerTimeTraj is delay-and-sum towards the moving grid", "statement": "BeamformerTimeTraj.result(num) yields, for every num, exactly the rows whose delayed samples are in the stream; row n is the delay-and-sum towards the grid at its position at sample n.", "quantifier": "all trajectories, delays, stream lengths and block sizes", "why_tests_cant": "The number of rows of the last block depends on delays that change inside the block.", "anchors": ["acoular/tbeamform.py:356-494", "acoular/tfastfuncs.py:83-120"]}
{"id": "C68", "title": "The moving grid is a rigid, right-handed copy of the grid", "statement": "For every reference vector and velocity the grid moved along a trajectory keeps all distances and its handedness, its x-axis follows the velocity and its y-axis is perpendicular to rvec.", "quantifier": "all trajectories, reference vectors, grids", "why_tests_cant": "Depends on the relative direction of velocity and reference vector.", "anchors": ["acoular/tbeamform.py:305-336"]}
{"id": "C69", "title": "Trigger positions are the samples that trigger", "statement": "For every trigger signal and threshold, Trigger.trigger_data reports, in order, samples beyond the threshold ('dirac') or samples whose step from their predecessor is beyond it ('rect'), no two closer than the hunk; a candidate is left out only because of another one in the same hunk, an earlier one ('first') or one not smaller in magnitude ('extremum'); the reported extreme distances are those of the reported positions; fewer than two candidates raise; the samples beyond the guessed threshold do not change when a constant is added to the signal.", "quantifier": "all signals of any length, thresholds, hunk lengths in [0,1], both selection modes", "why_tests_cant": "The thinning loop's outcome depends on the whole sequence of distances and values.", "anchors": ["acoular/tprocess.py:310-506"]}
{"id": "C70", "title": "AngleTracker reports the true angle and speed", "statement": "For a shaft at constant speed whose triggers are recorded, AngleTracker.angle and AngleTracker.rpm are the true angle (modulo a turn) and speed at every sample, for every trigger offset, number of spline points >= 4 and number of triggers per revolution; average_rpm is the true speed. A shaft that changes its speed is tracked without error.", "quantifier": "all distances, offsets, sample counts, sampling frequencies, directions, start angles", "why_tests_cant": "The window of trigger positions is chosen anew for each sample; errors show only in certain windows.", "anchors": ["acoular/tprocess.py:508-660"]}
{"id": "C71", "title": "Virtual rotation of a ring array interpolates along the circle", "statement": "For every block size SpatialInterpolatorConstantRotation with linear interpolation yields one row per sample; a virtual microphone gets the linear interpolation, along the circle, of the two real microphones it is between after rotation by n*omega/fs; when aligned with a real microphone it gets exactly that channel; without rotation and with the virtual array equal to the real one the data are unchanged.", "quantifier": "all microphone rings with distinct angles, virtual arrays, speeds, streams, block sizes", "why_tests_cant": "Depends on the wrap-around of angles and on the accumulation of the phase over blocks.", "anchors": ["acoular/tprocess.py:663-1018", "acoular/tprocess.py:1213-1263"]}
{"id": "C72", "title": "Time-domain steering matches the frequency domain and keeps the level of a monopole", "statement": "BeamformerTime weights a channel with the magnitude of the frequency-domain steering vector of the same steer_type, at every frequency. When a monopole sits at a grid point and its sound takes a whole number of samples to every microphone, BeamformerTime returns at that grid point the signal of the source at the reference position for steer_type 'inverse' and 'true level'; 'classic' multiplies it by the mean of r0/rm and 'true location' by the root mean square of r0/rm. BeamformerTimeSq returns the square of that, and with r_diag the sum of the products of all pairs of different channels, replaced by zero where it is negative.", "quantifier": "all numbers of microphones and grid points, all positive distances, all four steer types, all wave numbers, all block sizes, all signals", "why_tests_cant": "Tests compare stored reference maps of one array and one signal; the equality of the two amplitude laws and the reproduction of the level hold for every geometry only by algebra.", "anchors": ["acoular/tfastfuncs.py:132-207", "acoular/tbeamform.py:126-232", "acoular/fbeamform.py:165-173", "acoular/fbeamform.py:258-277"]}
{"id": "C73", "title": "Capon maps never exceed conventional maps and have a known level at a source", "statement": "For a hermitian positive definite cross spectral matrix BeamformerCapon gives at every grid point a positive value that is not larger than what BeamformerBase gives with the same steering vector, for steer_type 'classic' and 'true location'. For one source in sensor noise and a grid point at the source the map is (p + s/S)(S/N)^2 for 'true level' and (p + s/S)(S/N) for 'true location', where p is the source level, s the noise power, N the number of microphones and S the sum of r0^2/r_m^2. With 'true level' it is the level of the source.", "quantifier": "all numbers of microphones, all hermitian positive definite matrices, all distances, all source and noise powers", "why_tests_cant": "A comparison of two maps in a test covers one matrix; the bound is a Cauchy-Schwarz inequality over all matrices and grid points.", "anchors": ["acoular/fbeamform.py:782-834", "acoular/fastFuncs.py:236-330", "acoular/fbeamform.py:258-277"]}
{"id": "C74", "title": "MUSIC maps are scaled to 4e-10 and do not depend on the source strengths", "statement": "BeamformerMusic gives positive values of which the largest is 4e-10. For K sources with linearly independent transfer vectors in sensor noise and n = K the map depends on the positions of the sources only, not on their powers and not on the power of the noise. The denominator vanishes exactly at the sources, so that the map shows a peak at each of them.", "quantifier": "all numbers of microphones, sources and grid points, all source and noise powers, every eigenvector basis that eigh may return, all steer types", "why_tests_cant": "The independence of the powers is a statement about all matrices with the same noise subspace, whatever basis of that subspace the eigenvalue routine returns; a test sees one basis.", "anchors": ["acoular/fbeamform.py:902-960", "acoular/fastFuncs.py:334-430", "acoular/spectra.py:430-520"]}
{"id": "C75", "title": "Functional beamforming: larger gamma never raises the map and keeps the level of a source", "statement": "For a positive semidefinite cross spectral matrix the map of BeamformerFunctional does not increase at any grid point when gamma is increased. For a single source without noise the value at the position of the source does not depend on gamma: it is the level of the source for steer_type 'true level' and that level times the mean of r0^2/r^2 for 'true location'.", "quantifier": "all numbers of microphones, all eigenvalues and orthonormal eigenvectors, all real gamma > 0, all steer types", "why_tests_cant": "Monotonicity in a real parameter over all matrices is Jensen's inequality; a test samples a few exponents for one matrix.", "anchors": ["acoular/fbeamform.py:689-780", "acoular/fastFuncs.py:334-430"]}
{"id": "C76", "title": "Covariance matrix fitting solves the equations of the cross spectral matrix", "statement": "The real system that BeamformerCMF hands to its solvers holds for source strengths x exactly if the sources reproduce the cross spectral matrix times unit_mult, at all entries off the main diagonal when r_diag is set and at all entries otherwise. The value minimised by 'fmin_l_bfgs_b' is the sum of the squared magnitudes of the residual over half of the matrix (the main diagonal once or not at all), the gradient passed along is its derivative, and a stationary point is a global minimum over the non-negative strengths. The method 'NNLS' returns the non-negative least squares solution of that system.", "quantifier": "all numbers of channels and grid points, all transfer functions, all hermitian cross spectral matrices, all strengths", "why_tests_cant": "Equivalence of the packed real system with the complex matrix equation, and a gradient, are statements about all matrices and all directions.", "anchors": ["acoular/fbeamform.py:1640-1895"]}
{"id": "C77", "title": "SODIX: cost, gradient and independence of the order of requests", "statement": "The cost of BeamformerSODIX is zero exactly if the directivities reproduce the cross spectral matrix, and the gradient handed to the optimiser is its derivative. The result of a frequency is the same whichever frequencies were requested before, in whatever order: it is the end of the chain of optimisations from the lowest frequency upwards, each started from the result below. Every requested frequency is calculated.", "quantifier": "all numbers of microphones and grid points, all hermitian matrices, all directivities, all sequences of requests, any optimiser", "why_tests_cant": "The result depends on the history of the object through the initial guess; order independence is a statement about all histories.", "anchors": ["acoular/fbeamform.py:1895-2055", "acoular/fbeamform.py:412-449"]}
{"id": "C78", "title": "CLEAN in the time domain", "statement": "BeamformerCleant decomposes every block: its output is the sum of damp times the beamformer output over at most n_iter accepted iterations, each at the point with the largest residual power, and the residual power summed over the grid falls with every accepted iteration. For a single grid point with whole-sample delays and a level-preserving formulation the deconvolved signal is 1-(1-damp)^n_iter times the beamformer signal. BeamformerCleantSq delivers the squares and is never negative. The deconvolved signals do not depend on the block size.", "quantifier": "all microphone counts, grids, delays, signals, damping factors, iteration counts and block sizes", "why_tests_cant": "The loop is data dependent (argmax and stopping rule); tests compare stored snapshots for one signal and one block size.", "anchors": ["acoular/tbeamform.py:126-232", "acoular/tbeamform.py:552-645"]}
{"id": "C79", "title": "Equal digests mean equal data", "statement": "Two objects with equal digests produce the same output. In particular any number of objects read through Cache objects that share a cache file, in any order and with interruptions, each receive their own data. Per class: every attribute the result is computed from is part of the digest.", "quantifier": "all pairs of objects of a class, all attribute values, all hash functions, all sequences of reads through one cache file", "why_tests_cant": "Tests compare the digests of a few pairs of objects; that no attribute which influences the result is missing concerns all pairs of settings of all classes, and the damage only shows when two such objects meet in one cache file.", "anchors": ["acoular/internal.py:8-25", "acoular/process.py:255-379", "acoular/sources.py:1621-1707", "acoular/calib.py:101-173", "acoular/sources.py:975-990", "acoular/sources.py:1111-1125", "acoular/sources.py:1376-1390", "acoular/sources.py:1735-1750"]}
{"id": "C80", "title": "PointSourceDipole radiates with a cos(theta)/r directivity", "statement": "Each channel of PointSourceDipole is the delayed signal times cos(theta)/r, where theta is the angle between direction and the microphone (up to third order in the distance of the two poles); nothing is received in the plane between the poles; reversing direction reverses the sign of every sample; the rows come in full blocks.", "quantifier": "all signals, directions, locations, microphone positions, sampling rates, up-sampling factors, block sizes", "why_tests_cant": "Tests compare one configuration with stored data. That the two poles are read from the same sample of the signal for every microphone position is a rounding condition a random test meets almost always and a symmetric array not.", "anchors": ["acoular/sources.py:1210-1350"]}
{"id": "C81", "title": "MovingPointSourceDipole is a dipole moving along its trajectory", "statement": "A MovingPointSourceDipole at rest is a dipole with cos(theta)/r directivity; for any trajectory each channel depends only on its own microphone; conv_amp scales the amplitude with the radial Mach number; with rvec the dipole axis keeps its orientation in the moving frame; reversing direction reverses the sign.", "quantifier": "all trajectories, directions, rvec, microphone sets and orders, conv_amp, signals", "why_tests_cant": "Tests compare one configuration with stored data; independence of the other channels and of their order, and the effect of conv_amp, are relations between different runs.", "anchors": ["acoular/sources.py:1353-1580"]}
{"id": "C82", "title": "SphericalHarmonicSource is a point source weighted with its directivity", "statement": "For every block size, SphericalHarmonicSource delivers what a point source with the same location, signal and start delivers, each channel multiplied by the directivity in the direction of that microphone: the sum of the coefficients alpha times the spherical harmonics up to lOrder. A wrong number of coefficients raises ValueError; the magnitude of a coefficient, not its phase, decides how loud its mode is.", "quantifier": "all orders, coefficients, signals, microphone sets, environments, up-sampling factors and block sizes", "why_tests_cant": "Each block is transformed with an FFT of its own length, so that the independence of the block size is a statement about all lengths; the effect of complex coefficients is one about all of them.", "anchors": ["acoular/sources.py:225-317", "acoular/sources.py:925-1078"]}
{"id": "C83", "title": "The pattern of a SphericalHarmonicSource turns with its direction", "statement": "Rotating direction and the microphones together about the source leaves all channels unchanged. Only the direction of the vector direction counts, not its length. The azimuth of get_radiation_angles lies in [0, 2 pi), the elevation in [0, pi].", "quantifier": "all rotations, directions, microphone positions, orders, coefficients and signals", "why_tests_cant": "Invariance under rotations is a relation between infinitely many pairs of configurations; the tests use the default direction.", "anchors": ["acoular/sources.py:193-317", "acoular/sources.py:1029"]}
{"id": "C84", "title": "Convective amplification of MovingPointSource", "statement": "With conv_amp the amplitude received from a MovingPointSource is multiplied by 1/(1-M)^2, where M is the Mach number of the motion towards the microphone at the emission time: an approaching source is amplified, a receding one attenuated.", "quantifier": "all trajectories slower than sound, microphone positions, signals and sample indices", "why_tests_cant": "Tests compare stored data of one trajectory; which radial direction enters M only shows for microphones and paths not on one line through the origin.", "anchors": ["acoular/sources.py:1150-1207"]}
{"id": "C85", "title": "MovingLineSource is a LineSource moving along its trajectory", "statement": "A MovingLineSource on a trajectory that does not move delivers what the LineSource at that place delivers; conv_amp acts on all its monopoles; each channel depends only on its own microphone.", "quantifier": "all line lengths, numbers of monopoles, trajectories, microphone sets and orders, signals, block sizes", "why_tests_cant": "Relations between different classes and different runs; the only test compares one configuration with stored data.", "anchors": ["acoular/sources.py:1710-1947"]}
{"id": "C86", "title": "BeamformerGridlessOrth keeps every selected component in columns of its own", "statement": "result[i] of BeamformerGridlessOrth holds, for each selected component, the level eigenvalue/num_channels at the column of its position, and zero in all columns that belong to other frequencies, in whatever order the frequencies are requested. The row sums up to the selected eigenvalues divided by the number of channels. The component whose eigenvector belongs to a single source is placed where the objective function has its minimum, which is the position of the source. eva_list may be set directly, as documented.", "quantifier": "all frequency data, all lists of components, all orders and repetitions of requests", "why_tests_cant": "The columns are shared by all frequencies, so that the property is about every sequence of requests; tests request each frequency once with n components.", "anchors": ["acoular/fbeamform.py:2339-2465", "acoular/fbeamform.py:280-305"]}
{"id": "C87", "title": "BeamformerGIB fits every selected eigenmode with regularised least squares", "statement": "With method 'Suzuki' BeamformerGIB determines for each selected eigenmode with a positive eigenvalue the amplitudes at the grid points with the smallest residual plus eps_perc times the largest eigenvalue times the weighted squares, no matter whether there are more points or more channels, and adds up the squared amplitudes of all modes at all points; beta limits the number of points per mode.", "quantifier": "all transfer matrices, numbers of channels, points, modes and iterations, all norms and regularisations", "why_tests_cant": "Optimality is a statement about all other amplitudes; tests compare one map with stored data.", "anchors": ["acoular/fbeamform.py:2058-2293"]}
{"id": "C88", "title": "FiltWNoiseGenerator filters white noise and keeps it aligned", "statement": "FiltWNoiseGenerator.signal returns num_samples values of the white noise of WNoiseGenerator (same rms and seed) filtered with the coefficients ar and ma, i.e. the solution of the difference equation that starts at rest; the delay of half the length of ma is compensated, so that a symmetric moving average is centred at the sample. More samples continue the same signal. Without coefficients the signal is that of WNoiseGenerator.", "quantifier": "all coefficients, rms values, seeds, numbers of samples and noise sequences", "why_tests_cant": "A relation between all values of the output and all values of the noise; tests compare the first values of one stored signal.", "anchors": ["acoular/signals.py:199-265", "acoular/signals.py:345-462"]}
{"id": "C89", "title": "usignal upsamples without changing the samples", "statement": "usignal(factor) of a signal generator returns factor*num_samples values, of which every factor-th is the value of signal(), and for a SineGenerator below half the sampling frequency the values between are those of the sine wave at the higher sampling frequency.", "quantifier": "all signals, factors, frequencies, phases and lengths", "why_tests_cant": "An identity of discrete Fourier transforms for every length; tests check shapes.", "anchors": ["acoular/signals.py:82-121", "acoular/signals.py:465-557"]}
{"id": "C90", "title": "num_samples and num_channels announce what result delivers", "statement": "For every source or processing object, the blocks of result(num) together have num_samples rows, each with num_channels entries, whatever chain of objects it is at the end of and whatever num is. Users of the attribute (PowerSpectra, file writers, filters that allocate the whole signal) rely on it.", "quantifier": "all chains of processing objects, all sources, all block sizes", "why_tests_cant": "The attribute is computed by delegation along the chain, the rows by the chain of generators; agreement is an induction over all chains.", "anchors": ["acoular/base.py:161-310", "acoular/process.py:132-148", "acoular/tprocess.py:155-197", "acoular/tprocess.py:1940-2085", "acoular/tbeamform.py:180-330", "acoular/spectra.py:280-290"]}
{"id": "C91", "title": "PointSourceConvolve delivers the signal convolved with the impulse responses", "statement": "PointSourceConvolve delivers for every microphone the linear convolution of the signal with the column of the kernel that belongs to the microphone, or with the single column if there is only one, in num_samples rows.", "quantifier": "all signals, kernels, numbers of microphones and block sizes", "why_tests_cant": "A statement about every value of the output for all kernels; the tests only check the digest and shapes.", "anchors": ["acoular/sources.py:2331-2455"]}
{"id": "C92", "title": "CrossPowerSpectra delivers the cross spectra of every snapshot", "statement": "CrossPowerSpectra.result delivers for every input spectrum and frequency the products x_i conj(x_j) times the scaling: all pairs with calc_mode 'full', the pairs i <= j with 'upper' and i >= j with 'lower', num_channels values per frequency. The diagonal equals AutoPowerSpectra, and the mean over the snapshots of RFFT is the cross spectral matrix of PowerSpectra with the same window and overlap. The values do not depend on the block size.", "quantifier": "all spectra, numbers of channels and frequencies, scalings, block sizes", "why_tests_cant": "Equality of two independent implementations for all inputs; tests compare one recording, and only with one mode.", "anchors": ["acoular/fprocess.py:283-452", "acoular/spectra.py:385-401"]}
{"id": "C93", "title": "barspectrum sums every line into one band", "statement": "barspectrum(data, fftfreqs, num) returns, for the consecutive nominal octave or third-octave bands that lie within the spectrum, the sums of the lines that belong to each band; every line between the edges of the first and the last band is counted in exactly one band, so the total is kept. With bar=True every band is drawn as one bar with two points at its borders, as bardata does from the band values. A spectrum without a complete band gives no bars.", "quantifier": "all spectra, increasing frequencies, octave and third-octave bands, offsets", "why_tests_cant": "Depends on how the lines fall relative to every band edge; tests check lengths of one spectrum.", "anchors": ["acoular/tools/helpers.py:105-293"]}
{"id": "C94", "title": "TimeExpAverage is the exponential average of IEC 61672", "statement": "With weight F, S or I the output at sample n is the sum of all past input samples weighted with alpha*exp(-(age)/(tau*fs)), tau = 125 ms, 1 s, 35 ms: a constant level L is reached as L*(1-exp(-(n+1)/(tau fs))), after the end of the signal the output decays by exp(-1/(tau fs)) per sample, and the output stays between the bounds of the input, for every block size.", "quantifier": "all sampling frequencies, weights, streams, channels, block sizes", "why_tests_cant": "the decay is a statement about every length and every block partition", "anchors": ["acoular/tprocess.py: TimeExpAverage._get_sos, Filter.result"]}
{"id": "C95", "title": "FiltFreqWeight weights a tone with the nominal A, C or Z gain", "statement": "A stationary tone of frequency f below or at half the sampling frequency leaves FiltFreqWeight, after an exponentially decaying transient, as a tone of the same frequency with its amplitude multiplied by the nominal weighting of IEC 61672-1 at f.", "quantifier": "all frequencies, sampling frequencies, amplitudes, phases, lengths, block sizes", "why_tests_cant": "a steady state is a limit; tests compare a few frequencies with tolerances", "anchors": ["acoular/tprocess.py: FiltFreqWeight._get_sos, Filter.result"]}
{"id": "C96", "title": "Octave and third-octave filters have the edges of their band", "statement": "FiltOctave, FiltFiltOctave and OctaveFilterBank: every band up to fs/(2 sqrt 2) is accepted, higher bands raise ValueError; the edges are placed around the band centre such that the power bandwidth is the width of the band; a bank has one filter per band, its bands do not overlap, and the filters follow changes of lband, hband and fraction.", "quantifier": "all bands, orders, fractions, sampling frequencies, any design function butter", "why_tests_cant": "continuous ranges of bands and frequencies; caching depends on the history of accesses", "anchors": ["acoular/tprocess.py: FiltOctave._get_sos, FiltFiltOctave._get_sos, OctaveFilterBank._get_sos, OctaveFilterBank._get_bands"]}
{"id": "C97", "title": "c_air gives the speed of sound of humid air and refuses conditions outside the range of its formula", "statement": "c_air(t, h, p, co2) is Cramer's polynomial in the temperature, the pressure and the mole fractions of water vapour and carbon dioxide, where the fraction of water vapour is the relative humidity times the CIPM enhancement factor times the saturation vapour pressure over the pressure. It rises with the temperature (at least 0.5 m/s per degree) and with the humidity, lies between 330 and 354 m/s, and is a ValueError exactly when the temperature, pressure or a fraction lies outside 0..30 degrees, 60..110 kPa, 0..6 %, 0..1 %; humidities outside 0..100 % are refused.", "quantifier": "all temperatures, humidities, pressures and carbon dioxide contents", "why_tests_cant": "The tests compare a handful of values with the published table; that the formula is evaluated with the right units everywhere, monotone and refused outside its range is a statement over a continuum.", "anchors": ["acoular/tools/helpers.py:349-403", "acoular/tools/utils.py:109-116"]}
{"id": "C98", "title": "Constant-power weights give every ring of microphones the power of its area", "statement": "const_power_weight gives, for every microphone array, weights such that the sum of squared weights of the microphones in a ring (distances from the origin relative to the largest, to one decimal) is proportional to the area between the midpoints to the neighbouring rings (the innermost from zero, the outermost as far outwards as inwards), with mean one over the rings.", "quantifier": "all microphone arrays", "why_tests_cant": "No test checks the weights; the rings depend on every distance, and the boundary cases (one ring, the outermost ring) are not reached by the arrays of the tests.", "anchors": ["acoular/tbeamform.py:59-85"]}
{"id": "C99", "title": "LineGrid spans its length with equally spaced points, MergeGrid holds every point once with its subgrid", "statement": "A LineGrid's positions start at loc, follow each other with the same step along the direction, and end at the distance length, for every number of points. A MergeGrid's positions are exactly the points of its grids, each once, and subgrids names for each point a grid that contains it.", "quantifier": "all locations, directions, lengths, numbers of points; all lists of grids", "why_tests_cant": "Tests use few points; the order that unique imposes and duplicates across grids matter only in combination with subgrids, which no test compares.", "anchors": ["acoular/grids.py:932-1010", "acoular/grids.py:1012-1084"]}
{"id": "C100", "title": "RectGrid.indices selects exactly the grid points of a circle, rectangle or polygon", "statement": "indices returns the indices of exactly the grid points that lie in the circle (three values), the rectangle (four values) or the polygon (more), each once; if no point lies in the circle or polygon, the index of the point nearest to its centre. RectGrid3D.indices does the same for a box. The indices are valid for the grid's shape.", "quantifier": "all rectangular grids, all circles, rectangles and polygons", "why_tests_cant": "Tests check a few regions on one grid; the answer depends on rounding at every grid point and on the ratio of extent and increment.", "anchors": ["acoular/grids.py:484-540", "acoular/grids.py:716-760", "acoular/grids.py:453-482"]}
{"id": "C101", "title": "Cached results are those that would have been calculated", "statement": "With result caching switched on (in any mode, with either HDF5 library) the values a beamformer or a PowerSpectra object delivers are those it would calculate without a cache: a cache file written by an earlier run is reused only for equal settings, 'readonly' never changes a file, 'overwrite' replaces, and 'none' leaves files alone.", "quantifier": "all sequences of requests by any number of objects with any settings, all cache modes, all initial contents of cache files written by such runs", "why_tests_cant": "a test uses one or two objects and one mode; which runs share a file, in which order and with which mode is unbounded", "anchors": ["acoular/fbeamform.py:362-449", "acoular/spectra.py:492-550", "acoular/configuration.py:83-91"]}
{"id": "C102", "title": "The sound card source delivers what the card recorded", "statement": "SoundDeviceSamplesGenerator delivers consecutive recorded samples in blocks of the requested size, exactly num_samples of them when that is not negative; it reports an overflow that happened; running is true exactly while a generator collects; the settings match the selected device.", "quantifier": "all block sizes, sample limits, recordings, overflow patterns and sequences of consumer actions", "why_tests_cant": "needs hardware; tests cannot make overflows or early termination happen in every order", "anchors": ["acoular/sdinput.py:25-136"]}
{"id": "C103", "title": "The frequency range of PowerSpectra selects the lines inside it", "statement": "After freq_range = (lo, hi) the lines analysed are those FFT lines with lo <= f < hi (hi = None: no upper limit), after ind_low = a and ind_high = b the lines a ... b-1; freq_range reads back the range in use; integrate without frange goes over the same lines; setting one limit keeps the other.", "quantifier": "all sampling frequencies, block sizes, limits by frequency or index, in any order of assignment", "why_tests_cant": "tests use a few limits inside the spectrum at one block size", "anchors": ["acoular/spectra.py:200-346", "acoular/fbeamform.py:663-687"]}
{"id": "C104", "title": "Eigenvalues of the cross-spectral matrix", "statement": "PowerSpectra.eva and eve decompose the cross-spectral matrix of each line: csm = eve diag(eva) eve^H with eigenvalues in ascending order that are not negative and sum to the total auto power. synthetic_ev(f, num) gives the eigenvalues of the line nearest above f for num = 0 and their sums over the lines of the 1/num octave band around f otherwise, zero for a band without lines, as the other band functions do.", "quantifier": "for every cross-spectral matrix, every number of channels, every frequency and bandwidth", "why_tests_cant": "eigh is external; tests compare stored eigenvalues for one matrix and never use a band between two lines or above the last line", "anchors": ["acoular/spectra.py:403-490", "acoular/spectra.py:552-612"]}
{"id": "C105", "title": "CLEAN in the time domain on moving grids", "statement": "BeamformerCleantTraj delivers the sum of damp times the moving-focus beamformer output over the accepted iterations, each at the strongest point, with the signal of that point removed from the microphone signals at its arrival times, so that the residual power falls; for a grid at rest it is BeamformerCleant; it delivers the rows BeamformerTimeTraj delivers and ends where that ends.", "quantifier": "for every grid, delays from any motion slower than sound, damping, number of iterations, stream and block size", "why_tests_cant": "tests compare one moving source with stored values; the last block depends on stream length, motion and block size together", "anchors": ["acoular/tbeamform.py:356-503", "acoular/tbeamform.py:648-749", "acoular/tfastfuncs.py:85-140"]}
{"id": "C106", "title": "The transfer matrix relates microphones to the reference", "statement": "SteeringVector.transfer(f) is, for every grid point and microphone, the pressure of a monopole at the microphone divided by its pressure at the reference (a distance or a point, as assigned to ref); with an index argument the rows addressed are delivered, for the steering vectors too; true level and inverse steering vectors have unit response to the point's own transfer vector and true level is the shortest such vector; rounding the phase to single precision changes a transfer function by at most the unit roundoff times the phase.", "quantifier": "all environments' distances, grids, arrays, references, frequencies, indices, steering types", "why_tests_cant": "Ratio, optimality and index laws over all geometries; error bound over all phases.", "anchors": ["acoular/fbeamform.py: SteeringVector._set_ref, _get_r0, _get_rm, transfer, steer_vector", "acoular/fastFuncs.py: calcTransfer, _transferCoreFunc", "acoular/environments.py: Environment._r"]}
{"id": "C107", "title": "Counts computed with floats are the integer counts", "statement": "The numbers of blocks, groups, lines, kernel parts, buffer rows and channels, which the code obtains from a float division, equal those of integer arithmetic; the number of positions of Trajectory.traj(t_start, t_end, delta_t) is the number of steps in the half-open interval.", "quantifier": "all sizes below a fraction of 1/u, for any arithmetic with unit roundoff u; double precision as instance", "why_tests_cant": "Rounding errors show only for particular sizes; all sizes must be covered.", "anchors": ["acoular/process.py: Average.result", "acoular/fprocess.py: RFFT._get_num_samples, _get_num_freqs, IRFFT.result, CrossPowerSpectra._get_num_channels", "acoular/tprocess.py: TimeConvolve", "acoular/tbeamform.py: BeamformerTime.result", "acoular/trajectory.py: Trajectory.traj"]}
{"id": "C108", "title": "RectGrid's counts, points and indices survive rounding", "statement": "In floating-point arithmetic the number of steps of a RectGrid is that of exact arithmetic when the extent is close to a multiple of the increment, the points are at the exact places up to a few roundings, and index() of every point of the grid is the number of that point.", "quantifier": "all limits, increments and grids with sizes below a fraction of 1/u; double precision as instance", "why_tests_cant": "Rounding errors show only for particular limits; all must be covered.", "anchors": ["acoular/grids.py: RectGrid._get_nxsteps, _get_pos, index"]}
{"id": "C109", "title": "Spectral lines and single-line results in floating-point arithmetic", "statement": "fftfreq() of the spectra gives increasing frequencies within a few roundings of k fs / n, and synthetic(f, 0) at the frequency of line k delivers line k.", "quantifier": "all sampling frequencies, block sizes and lines; double precision as instance", "why_tests_cant": "Rounding errors show only for particular sampling frequencies.", "anchors": ["acoular/spectra.py: BaseSpectra.fftfreq", "acoular/fprocess.py: RFFT._get_freqs", "acoular/fbeamform.py: BeamformerBase.synthetic"]}
{"id": "C110", "title": "Microphone geometries and grids from files", "statement": "A geometry read from an XML file has one microphone for each pos element, in the order of the file, at its x, y and z; a geometry that is exported and read again has the positions of the valid microphones; a grid from such a file has these points and a subgrid name for each. The center is the mean of the positions and the aperture the largest distance between two microphones.", "quantifier": "for all documents, positions, lists of invalid channels and names of files", "why_tests_cant": "Tests read a few example files. That every document is read in full and in order, that every geometry survives export and import, and the extremal characterisation of the aperture range over unboundedly many positions.", "anchors": ["acoular/microphones.py:MicGeom._import_mpos", "acoular/microphones.py:MicGeom.export_mpos", "acoular/microphones.py:MicGeom._get_center", "acoular/microphones.py:MicGeom._get_aperture", "acoular/grids.py:ImportGrid.import_gpos"]}
{"id": "C111", "title": "Names derived for cache and wave files", "statement": "The basename of a chain is the name of the file at its origin without directory and extension, however many objects lie in between, and the alternative name if there is no file. WriteWAV without a file name writes different selections of channels to different files.", "quantifier": "for all chains, file names and lists of channels", "why_tests_cant": "Chains and channel lists of any length; a collision of two names is not visible in a test that writes a single file.", "anchors": ["acoular/tools/utils.py:get_file_basename", "acoular/tools/utils.py:find_basename", "acoular/tprocess.py:WriteWAV.save", "acoular/process.py:Cache._get_basename"]}
{"id": "C112", "title": "Benchmark files and imported matrices behind a cached beamformer", "statement": "CsmAIAABenchmark provides the cross spectral matrix of the file in the sign convention that the file declares, for all its frequencies. A beamformer that reads results from a cache file is given the results of its own measurement.", "quantifier": "for all files, frequencies, channels, sessions that share a cache file and rows", "why_tests_cant": "Needs two measurements and a cache file that outlives a session; tests use one file with caching off.", "anchors": ["acoular/aiaa/aiaa.py:CsmAIAABenchmark._get_csm", "acoular/aiaa/aiaa.py:CsmAIAABenchmark._get_indices", "acoular/aiaa/aiaa.py:CsmAIAABenchmark._get_digest", "acoular/spectra.py:PowerSpectraImport._get_digest", "acoular/fbeamform.py:BeamformerBase._get_filecache"]}
{"id": "C113", "title": "A tone comes out of the map with its level and at its place", "statement": "If the samples are those of point sources that emit tones (amplitude falling with the distance, delay distance over speed of sound) and every frequency is a spectral line of the chosen block size, then PowerSpectra and BeamformerBase show at the line and the position of each source, with steering types 'true level' and 'inverse', the mean square pressure of this source at the reference position; with 'true location' and 'classic' no other point is louder; lines without a tone are zero.", "quantifier": "all numbers of sources, channels, block sizes, overlaps, lengths, amplitudes, phases, positions, windows", "why_tests_cant": "Simulations in tests compare one map with tolerances of a decibel or look for the grid point of the maximum; the loss of level by the window or by incomplete blocks stays inside the tolerance, and the exactness over all positions and frequencies cannot be sampled.", "anchors": ["acoular/spectra.py:PowerSpectra.calc_csm", "acoular/spectra.py:BaseSpectra._get_source_data", "acoular/fbeamform.py:BeamformerBase._calc", "acoular/fastFuncs.py:_freqBeamformer_FullCSM"]}
{"id": "C114", "title": "Focusing on a simulated source gives its signal", "statement": "PointSource followed by BeamformerTime with the same microphones and environment, with steering type 'inverse' or 'true level': at the grid point where the source is, the output is the signal of the source divided by the distance to the reference position, sample by sample, whatever the block sizes, the up-sampling factor and the start time of the simulation.", "quantifier": "all numbers of microphones and grid points, positions, signals, speeds of sound, up-sampling factors, block sizes, sample numbers with a full array behind them", "why_tests_cant": "Tests compare one stored output of each class; that source and beamformer use the same convention for delays, rounding and amplitude at every sample is a relation between two classes over all delays.", "anchors": ["acoular/sources.py:PointSource.result", "acoular/tbeamform.py:BeamformerTime.result", "acoular/tfastfuncs.py:_delayandsum4"]}
{"id": "C115", "title": "Unit and order of the channels do not matter", "statement": "If all samples are multiplied by one factor a (a calibration, another unit) and the channels are recorded in another order, with the microphones listed in the same order, then every frequency domain beamformer gives, at every grid point, a*a times its map: BeamformerBase with and without removal of the diagonal, Capon, Eig, Functional, DAMAS, CLEAN (in the same number of passes), CLEAN-SC (with the same passes), GIB; the eigenvalues are multiplied by a*a, the map of MUSIC, which is normalised, stays as it is.", "quantifier": "all measurements, factors, orders, array sizes, grids, steering types, block sizes, overlaps, windows, numbers of iterations, dampings", "why_tests_cant": "A metamorphic relation between two complete runs; the iterative methods contain comparisons and stopping rules that could depend on the absolute level, which a test with one data set in pascal does not show.", "anchors": ["acoular/spectra.py:PowerSpectra.calc_csm", "acoular/fbeamform.py:BeamformerBase._calc", "acoular/fbeamform.py:BeamformerCapon._calc", "acoular/fbeamform.py:BeamformerDamas._calc", "acoular/fbeamform.py:BeamformerClean._calc", "acoular/fbeamform.py:BeamformerCleansc._calc", "acoular/fbeamform.py:BeamformerFunctional._calc", "acoular/fbeamform.py:BeamformerMusic._calc", "acoular/fbeamform.py:BeamformerGIB._calc"]}
{"id": "C116", "title": "The eigenvectors chosen do not matter", "statement": "The eigenvalue decomposition of a cross spectral matrix leaves phases, and with equal eigenvalues whole bases, to the library. The eigenvalues and the maps of BeamformerFunctional, BeamformerEig and BeamformerMusic depend on the matrix only.", "quantifier": "all Hermitian matrices, all orthonormal decompositions of them, array sizes, grid points, steering types, exponents, components", "why_tests_cant": "A test sees one decomposition by one build of LAPACK; another build or platform returns another one.", "anchors": ["acoular/spectra.py:PowerSpectra.calc_eva", "acoular/spectra.py:PowerSpectra.calc_eve", "acoular/fbeamform.py:BeamformerEig._calc", "acoular/fbeamform.py:BeamformerFunctional._calc", "acoular/fbeamform.py:BeamformerMusic._calc"]}
{"id": "C117", "title": "CLEAN-SC finds and removes one source", "statement": "If the cross spectra of different microphones are those of one monopole at a grid point where the map has its maximum (the autospectra may be contaminated), BeamformerCleansc puts the level of the map at that point, nothing elsewhere, and what remains of the source after J passes is (1 - damp)^J of it; in particular the clean map never shows the source with a higher level than the conventional map.", "quantifier": "for all arrays, distances, wave numbers, steering formulations, source powers, damping factors and numbers of passes", "why_tests_cant": "the inner iteration of twenty steps only approximates the component; a test on one array cannot tell a correct limit from a slightly wrong one, and the deviation depends on the number of microphones and on r_diag", "anchors": ["acoular/fbeamform.py:1455-1546", "acoular/fastFuncs.py:232-403"]}
{"id": "C118", "title": "Objects can be registered and removed at a SampleSplitter at any time", "statement": "register_object and remove_object may be called at any time between next() calls. Whatever is registered and removed, every object receives blocks the splitter has fetched, in order and none twice; an object registered later receives everything fetched from then on as long as its buffer is large enough, or an error is raised; a removed object receives nothing any more; remove_object removes exactly the given objects (all without arguments); and removing an object has no effect on what the other objects receive.", "quantifier": "all sources, buffer sizes, treatments, schedules of result(), next(), register_object and remove_object calls", "why_tests_cant": "tests register all objects first and never remove one while generators run; which generator knows which object depends on the order of the calls", "anchors": ["acoular/process.py:383-675"]}
{"id": "C119", "title": "The rays of GeneralFlowEnvironment are rays of sound", "statement": "The rays that GeneralFlowEnvironment traces backwards from a microphone obey the equations of sound rays in the given flow field: positions and slowness follow Hamilton's equations of the dispersion relation c|s| - v.s of the reversed flow, start in the requested directions, and in a uniform flow the travel times collected along the rays are those of UniformFlowEnvironment.", "quantifier": "all flow fields (RotatingFlow, OpenJet, SlotJet and any other with a Jacobian), speeds of sound, positions, directions and slownesses; all exact solutions of the differential equations; all step sizes and ranges", "why_tests_cant": "Tests compare a few travel times, which depend on the bending of the rays only to second order in the Mach number; that the differential equation is the right one at every point of every flow cannot be tested.", "anchors": ["acoular/environments.py:GeneralFlowEnvironment.get_interpolator", "acoular/environments.py:OpenJet.v", "acoular/environments.py:SlotJet.v", "acoular/environments.py:RotatingFlow.v"]}
{"id": "C120", "title": "Only relative positions matter", "statement": "Moving microphones, grid, reference position and flow together (shift, rotation, mirror image) changes no map, no time signal and no simulated recording. So a plane array cannot tell front from back. Measuring all lengths in another unit, with the speed of sound in that unit, changes no map or beamformed signal. The reference position only scales a map by the squared ratio of the distances (steering 'inverse' and 'true level') or has no influence ('classic', 'true location'). It is enough to move microphones and grid.", "quantifier": "all orthogonal matrices, shifts, units of length, arrays, grids, cross spectral matrices, frequencies, steering formulations, flows", "why_tests_cant": "tests use one array at the origin, a handful of grid points and one unit", "anchors": ["acoular/fbeamform.py:175-189,SteeringVector.ref", "acoular/environments.py:205-242,Environment._r", "acoular/environments.py:279-314,UniformFlowEnvironment._r", "acoular/fastFuncs.py:232-314", "acoular/tbeamform.py:126-232", "acoular/environments.py:386-444,SlotJet"]}
{"id": "C121", "title": "Faulty microphones can be marked", "statement": "Marking microphones as invalid, in MaskedTimeSamples.invalid_channels and MicGeom.invalid_channels, gives the same maps and beamformed signals as a recording and an array without them: whatever they recorded, and their calibration factors and positions, has no influence; the cross spectral matrix is the one of all channels without their rows and columns. Marks that do not fit together are refused.", "quantifier": "all recordings, calibrations, arrays, sets of invalid channels, block sizes, overlaps, windows, steering formulations, block sizes of the time beamformer", "why_tests_cant": "tests mark one fixed set of channels in one small recording", "anchors": ["acoular/sources.py:617-746,MaskedTimeSamples", "acoular/microphones.py:163-172,MicGeom.pos", "acoular/fbeamform.py:412-416,_assert_equal_channels", "acoular/spectra.py:385-401", "acoular/tbeamform.py:126-232,BeamformerTime.result"]}
{"id": "C122", "title": "A stream written to an HDF5 file is the stream read from it", "statement": "If a stream is written with WriteH5 (by save() or by running result() to its end, with any block size) and the file is read with TimeSamples, then sampling rate, number of channels, number of samples and every sample value are those of the stream, for every block size of the reader; reading a part of the file with MaskedTimeSamples gives what MaskedTimeOut makes of the stream; a recording that was limited or stopped leaves exactly the first samples; copying a copy changes nothing.", "quantifier": "all streams, sizes, rates, block sizes of writer and reader, limits and moments of stopping, masks, both precisions; all real sample values below 2^127", "why_tests_cant": "tests write one small float array and compare with a tolerance; they cannot show that the default precision is the only loss, how large it can be, nor that every cut and block size agrees", "anchors": ["acoular/tprocess.py:1844-1950", "acoular/sources.py:380-520", "acoular/sources.py:600-746", "acoular/h5files.py:40-130"]}
{"id": "C123", "title": "Virtual rotation of a plane array with inverse distance weighting", "statement": "With array_dimension '2D' and method 'IDW' SpatialInterpolatorConstantRotation yields for every block size one row per sample; a virtual microphone, turned by n*omega/fs about the axis, gets the mean of the num_IDW nearest real microphones weighted by the inverse distance to the power p_weight; the value stays within the range of the channels; at the place of a real microphone it gets exactly that channel. The array may lie in any plane orthogonal to the axis and the virtual array may have any number of microphones.", "quantifier": "all plane arrays, virtual arrays, matrices Q, speeds, num_IDW >= 1, p_weight, streams, block sizes", "why_tests_cant": "Needs all positions and angles, and the choice of the nearest microphones for every sample.", "anchors": ["acoular/tprocess.py:663-1096", "acoular/tprocess.py:1213-1263"]}
{"id": "C124", "title": "Changing the settings of a spatial interpolator takes effect", "statement": "After any history of samples and assignments the rows computed by a SpatialInterpolator are those of a new object with the current mics, mics_virtual, Q, num_IDW and p_weight.", "quantifier": "all histories of assignments and samples", "why_tests_cant": "Depends on the order of assignments and evaluations; a test sees single histories.", "anchors": ["acoular/tprocess.py:673-764"]}
{"id": "C125", "title": "Accuracy of maps in floating-point arithmetic", "statement": "The map of BeamformerBase computed in floating-point arithmetic agrees with the exact quadratic form up to a bound that is proportional to the sum of the moduli of its terms: the level of a source has a small relative error for every formulation, number of microphones and with or without the diagonal, and elsewhere the error stays below a fixed fraction of the mean autopower. With double precision arithmetic the fraction is of the order of the double precision unit times the number of microphones.", "quantifier": "all Hermitian matrices, arrays, grid points, wave numbers, steering types, roundings with given unit, accuracies of sine and cosine", "why_tests_cant": "Tests compare with stored results at a tolerance; a bound for all inputs needs an error analysis of the loops.", "anchors": ["acoular/fastFuncs.py:213-314", "acoular/fbeamform.py:457-520"]}
{"id": "C126", "title": "What BeamformerDamas converges to", "statement": "With the formulation 'true level' every sweep of DAMAS brings the cross-spectral matrix of incoherent monopoles with the strengths of the map closer to the measured one; the distance converges to the smallest one that non-negative strengths can have, and exactly the maps with that distance are left unchanged by a sweep. For incoherent monopoles at grid points whose matrices are linearly independent, the map converges to their strengths, with or without the diagonal of the matrix.", "quantifier": "all arrays, grids, wave numbers, Hermitian matrices, numbers of sweeps, relaxation factors in (0,1]", "why_tests_cant": "Tests compare a map after some iterations with a stored one; convergence to a minimum is a statement about infinitely many sweeps and all matrices.", "anchors": ["acoular/fastFuncs.py:791-824", "acoular/fbeamform.py:1201-1238"]}
{"id": "C127", "title": "BeamformerDamasPlus solves the DAMAS system", "statement": "The maps of BeamformerDamasPlus do not depend on unit_mult. For incoherent monopoles at grid points whose maps are linearly independent the methods 'NNLS', 'LP' and, for a vanishing penalty alpha, 'LassoLars' deliver the strengths. For other data 'NNLS' delivers what the iteration of BeamformerDamas converges to.", "quantifier": "all arrays, grids, steering types, wave numbers, strengths, unit multipliers, solutions returned by the solvers", "why_tests_cant": "Tests run one small case per method and compare with stored maps; whether the problem handed to a solver has the right solution is a statement about all data.", "anchors": ["acoular/fbeamform.py:1244-1360"]}
{"id": "C128", "title": "The cache file of point spread functions", "statement": "With caching on, PointSpreadFunction.psf in mode 'full' delivers the point spread functions of its frequency, whatever was read before, at which frequencies and in which modes, and even if an earlier calculation was broken off by an exception or the end of the process.", "quantifier": "all histories of reads with modes, indices, frequencies and points of interruption, all arrays and grids", "why_tests_cant": "Tests read a file that was just written; histories over several sessions, broken off at any write, cannot be enumerated.", "anchors": ["acoular/fbeamform.py:1016-1111"]}
{"id": "C129", "title": "BeamformerDamas with steering type 'inverse'", "statement": "The point spread function of type 'inverse' has ones on its diagonal, so the solution of DAMAS is a fixed point (C37). For incoherent monopoles at grid points whose maps are linearly independent the iteration with 'inverse' converges to the strengths, as with 'true level' (C126). Two grid points whose distances to every microphone differ by whole wavelengths leak into each other by less than they contain themselves.", "quantifier": "all arrays, grids of two points, wave numbers, strengths, numbers of sweeps", "why_tests_cant": "A test fixes a geometry; the leakage inequality concerns all distances and numbers of microphones, and convergence all numbers of sweeps.", "anchors": ["acoular/fbeamform.py:1200-1240", "acoular/fastFuncs.py:659-690", "acoular/fastFuncs.py:791-824"]}
{"id": "C130", "title": "Unit multiplier and sign of BeamformerCMF", "statement": "The strengths delivered by BeamformerCMF do not depend on unit_mult (values are converted back before returning), for every method, and are not negative. For incoherent monopoles at grid points the matrix of the delivered strengths differs from the given one by no more than the penalty alpha allows.", "quantifier": "all arrays, grids, matrices, unit multipliers, penalties, solutions returned by the solvers", "why_tests_cant": "Tests run each method with the default unit; independence of the unit and the sign are statements about all matrices and units.", "anchors": ["acoular/fbeamform.py:1670-1895"]}
{"id": "C131", "title": "BeamformerTimeSq agrees with BeamformerBase", "statement": "For a record that repeats after one block the mean over one period of the output of BeamformerTimeSq at a grid point is the value BeamformerBase gives there, summed over all lines of the spectrum, for the same steering vector, with and without removal of the diagonal.", "quantifier": "all arrays, grid points, steering types, records, block sizes, overlaps, positions of the averaging interval", "why_tests_cant": "Tests compare each beamformer with stored values of itself; agreement of the two domains is an identity over all records that needs Parseval's identity and the shift theorem.", "anchors": ["acoular/tbeamform.py:145-275", "acoular/tfastfuncs.py:17-131", "acoular/tfastfuncs.py:132-228", "acoular/fbeamform.py:480-620", "acoular/spectra.py:330-420"]}
{"id": "C132", "title": "Eigenvalue methods separate incoherent sources", "statement": "For incoherent monopoles at grid points that the array can tell apart (orthogonal transfer vectors, different levels) with equal uncorrelated noise in all channels, each of the largest eigenvalues belongs to one source: the map of BeamformerEig for this component is the map of this source alone, and BeamformerOrth delivers the strength of every source at its grid point and zero elsewhere, whatever eigenvectors the library returns.", "quantifier": "all arrays, grids, numbers of sources, strengths, noise powers, eigenvector choices, steering types", "why_tests_cant": "Tests run one simulated measurement; separation holds for every choice of eigenvectors and needs the spectral theorem.", "anchors": ["acoular/fbeamform.py:827-902", "acoular/fbeamform.py:1359-1454", "acoular/spectra.py:430-470", "acoular/fastFuncs.py:342-403"]}
{"id": "C133", "title": "Sources that the array separates do not disturb each other in the map", "statement": "If the sound pressures of several incoherent sources at the microphones are orthogonal, the maps of BeamformerBase, BeamformerFunctional and BeamformerCapon at the point of each source are those of this source alone in the same noise, and the maximum of the map lies at the loudest source.", "quantifier": "for every number of microphones and sources, all positive strengths and distances, every noise power, every steering type, exponent gamma and result of the eigenvalue decomposition", "why_tests_cant": "A statement on all arrays, source positions and strengths and all exponents; simulations with real arrays meet the orthogonality only approximately, so that a disturbance by the method cannot be told from one by the array.", "anchors": ["acoular/fbeamform.py:308", "acoular/fbeamform.py:700", "acoular/fbeamform.py:791", "acoular/fastFuncs.py:232"]}
{"id": "C134", "title": "Diagonal removal suppresses the noise of the microphones only", "statement": "With r_diag = True noise that is uncorrelated between the microphones has no influence on the map of BeamformerBase, and sources whose sound pressures at the microphones are orthogonal do not influence each other's values.", "quantifier": "for every number of microphones and sources, all positive strengths and distances and every noise power, steering types 'true level' and 'true location'", "why_tests_cant": "A statement on all arrays and source strengths; a test compares levels of given sources with a tolerance and takes the missing power for side lobes or for the finite number of averages.", "anchors": ["acoular/fbeamform.py:308", "acoular/fbeamform.py:485", "acoular/fastFuncs.py:232"]}
{"id": "C135", "title": "CLEAN finds the sources with their strengths", "statement": "BeamformerClean applied to the map of several incoherent sources that the array separates delivers a map that is zero except at the points of the sources and there approaches their strengths with growing n_iter.", "quantifier": "for every number of microphones, sources and grid points, all positive strengths and distances with orthogonal transfer vectors of the sources, every damp and n_iter", "why_tests_cant": "A statement on all arrays, grids and numbers of iterations and on the limit; a test runs a fixed number of iterations on one example and compares with stored numbers.", "anchors": ["acoular/fbeamform.py:1549", "acoular/fbeamform.py:1652", "acoular/fastFuncs.py:636"]}
{"id": "C136", "title": "A further independent sound never lowers the map", "statement": "If a sound that is independent of the present one is added, the maps of BeamformerBase, BeamformerFunctional and BeamformerCapon do not become smaller at any point, and the value of both sounds is the sum of their values.", "quantifier": "for every number of microphones, all cross spectral matrices of the two sounds (Hermitian, no negative power), all distances, every steering type and every exponent gamma, every result of the eigenvalue decomposition, with and without removal of the diagonal", "why_tests_cant": "A statement on all pairs of positive semidefinite matrices and a continuum of exponents (operator monotonicity and concavity of powers); a test can only compare some simulated sources.", "anchors": ["acoular/fbeamform.py:485", "acoular/fbeamform.py:707", "acoular/fbeamform.py:726", "acoular/fbeamform.py:808", "acoular/fastFuncs.py:232"]}
{"id": "C137", "title": "Small errors of the cross spectral matrix change the maps little", "statement": "If the entries of the cross spectral matrix have small errors, e.g. because the average is taken over a finite number of blocks, the values of BeamformerBase, BeamformerFunctional, BeamformerCapon and BeamformerEig change by an amount bounded by the error.", "quantifier": "for every number of microphones, all cross spectral matrices and errors, all distances, every steering type, exponent, result of the eigenvalue decomposition, with and without removal of the diagonal", "why_tests_cant": "A bound for all matrices and all errors; a test can only try some of them, and the worst case is a direction of the error that random errors never have.", "anchors": ["acoular/fbeamform.py:485", "acoular/fbeamform.py:726", "acoular/fbeamform.py:808", "acoular/fbeamform.py:866", "acoular/fastFuncs.py:232"]}
{"id": "C138", "title": "The map of a measurement is the mean of the maps of its parts", "statement": "If a measurement is evaluated in parts and as a whole, with the cross spectral matrix of PowerSpectra averaged over all blocks, the map of the whole measurement is the mean of the maps of the parts, weighted with their numbers of blocks.", "quantifier": "for every number of microphones, parts and blocks, all samples, windows and frequency lines, all distances, every steering type and exponent, with and without removal of the diagonal", "why_tests_cant": "Concerns all measurements and all ways to divide them; whether averaging the maps or the matrices gives the larger value is an inequality for matrices that random data only illustrate.", "anchors": ["acoular/spectra.py:385", "acoular/fastFuncs.py:28", "acoular/fbeamform.py:485", "acoular/fbeamform.py:726", "acoular/fbeamform.py:808"]}
