{
 "claims": [
  {
   "property": "C01",
   "status": "proved",
   "theorems": [
    "C01_time_samples"
   ],
   "note": ""
  },
  {
   "property": "C02",
   "status": "proved",
   "theorems": [
    "C02_masked_time_samples"
   ],
   "note": "At least one channel must be valid; otherwise IndexError (last clause of the theorem)."
  },
  {
   "property": "C03",
   "status": "proved",
   "theorems": [
    "C03_block_size_independence",
    "C03_pipeline_meaning",
    "C03_channel_mixer_refuses"
   ],
   "note": "Stages modelled: Calib, MaskedTimeOut, ChannelMixer, TimePower, TimeCumAverage, TimeReverse, Filter and subclasses, FiltFiltOctave, Average, Mixer, over any well-behaved source."
  },
  {
   "property": "C04",
   "status": "proved",
   "theorems": [
    "C04_masked_time_out"
   ],
   "note": ""
  },
  {
   "property": "C05",
   "status": "proved",
   "theorems": [
    "C05_mixer"
   ],
   "note": ""
  },
  {
   "property": "C06",
   "status": "proved",
   "theorems": [
    "C06_time_reverse"
   ],
   "note": "Non-empty streams; an empty source raises IndexError (second clause)."
  },
  {
   "property": "C07",
   "status": "proved",
   "theorems": [
    "C07_time_cum_average",
    "C07_filter",
    "C07_time_power"
   ],
   "note": ""
  },
  {
   "property": "C08",
   "status": "partial",
   "theorems": [
    "C08_average_partial",
    "C08_num_samples_refuted",
    "C08_sample_rate"
   ],
   "note": "Rows are exactly the group means; the reported num_samples is the real quotient N/n and differs from the row count exactly when n does not divide N (refuted)."
  },
  {
   "property": "C09",
   "status": "proved",
   "theorems": [
    "C09_windows",
    "C09_reblock",
    "C09_library_users",
    "C09_buffer_too_short"
   ],
   "note": "Covers the three configurations used in the library; a buffer not longer than a source block is characterised separately (ValueError, or no output)."
  },
  {
   "property": "C10",
   "status": "partial",
   "theorems": [
    "C10_frames",
    "C10_frame_count",
    "C10_num_blocks_partial",
    "C10_num_blocks_refuted"
   ],
   "note": "The frames are exactly right; num_blocks is the real number ov*N/bs-ov+1 and equals the frame count iff bs divides N*ov, otherwise the cross spectral matrix is scaled too small (refuted, e.g. 10 % for 1000 samples and block size 128)."
  },
  {
   "property": "C11",
   "status": "partial",
   "theorems": [
    "C11_rfft_partial",
    "C11_rfft_refuted"
   ],
   "note": "Holds whenever there is at least one complete frame; with none, num>1 yields an invented zero spectrum (refuted)."
  },
  {
   "property": "C12",
   "status": "partial",
   "theorems": [
    "C12_time_convolve_partial",
    "C12_divisible_refuted",
    "C12_one_kernel_refuted",
    "C12_kernel_tail_ignored",
    "C12_long_kernel_refuted"
   ],
   "note": "True for one kernel per channel, kernel length <= num and (M+L-1) mod num <> 0; otherwise rows are missing, channels silent or the kernel's tail ignored (all refuted with the exact behaviour)."
  },
  {
   "property": "C13",
   "status": "partial",
   "theorems": [
    "C13_filter_bank_partial",
    "C13_filter_bank_refuted"
   ],
   "note": "Holds iff num divides the stream length (or the rest is one row with num=1); otherwise the last block is repeated rows or ValueError (refuted)."
  },
  {
   "property": "C14",
   "status": "proved",
   "theorems": [
    "C14_write_h5",
    "C14_write_h5_complete",
    "C14_write_h5_save"
   ],
   "note": ""
  },
  {
   "property": "C15",
   "status": "proved",
   "theorems": [
    "C15_write_wav",
    "C15_truncation"
   ],
   "note": "Non-silent signals; silent and empty signals are characterised in the last two clauses."
  },
  {
   "property": "C16",
   "status": "partial",
   "theorems": [
    "C16_partial",
    "C16_no_conflict",
    "C16_empty_refuted",
    "C16_h5py_crash_refuted"
   ],
   "note": "all histories of complete, abandoned and crashed reads in all modes; refuted for empty streams (UnboundLocalError) and for h5py crashes between resize and write (rows of zeros delivered later)"
  },
  {
   "property": "C17",
   "status": "partial",
   "theorems": [
    "C17_order_partial",
    "C17_complete_partial",
    "C17_overflow_lag",
    "C17_terminates",
    "C17_unregistered",
    "C17_size_refuted",
    "C17_dict_refuted",
    "C17_restart_refuted",
    "C17_spurious_refuted",
    "C17_stuck_refuted",
    "C17_late_registration_refuted",
    "C17_threads_refuted"
   ],
   "note": "all schedules of next() calls with static registration and one start of the source; refuted when the per-object buffer size differs from buffer_size, when buffer_size is a dictionary, when another consumer restarts the source, for late registration and for interleaved threads; the overflow error may be spurious and is permanent"
  },
  {
   "property": "C18",
   "status": "proved",
   "theorems": [
    "C18_source_mixer"
   ],
   "note": ""
  },
  {
   "property": "C19",
   "status": "proved",
   "theorems": [
    "C19_uncorrelated_noise"
   ],
   "note": ""
  },
  {
   "property": "C20",
   "status": "partial",
   "theorems": [
    "C20_point_source_partial",
    "C20_rounding",
    "C20_late_start_refuted",
    "C20_point_source_refuted"
   ],
   "note": "Exact when the recording starts before the wave front arrives; later starts read outside the signal array and, with zero pre-padding, yield extra blocks (refuted). Rounding before the start of the signal is off by up to 3/2 up-sampled values."
  },
  {
   "property": "C21",
   "status": "partial",
   "theorems": [
    "C21_checked_flush",
    "C21_always_flush_partial",
    "C21_empty_block_refuted"
   ],
   "note": "True for MovingPointSource and SphericalHarmonicSource; the dipole and line sources add an empty block exactly when num divides the number of rows (refuted)."
  },
  {
   "property": "C22",
   "status": "partial",
   "theorems": [
    "C22_line_source_partial",
    "C22_line_source_compounding",
    "C22_line_source_refuted",
    "C22_strengths_refuted"
   ],
   "note": "True for unit strengths; in general strengths compound over the monopoles and over readings (refuted, with the exact law)."
  },
  {
   "property": "C23",
   "status": "proved",
   "theorems": [
    "C23_generic_signal"
   ],
   "note": ""
  },
  {
   "property": "C24",
   "status": "proved",
   "theorems": [
    "C24_return_result"
   ],
   "note": ""
  },
  {
   "property": "C25",
   "status": "partial",
   "theorems": [
    "C25_partial",
    "C25_effect",
    "C25_mixer_refuted",
    "C25_sourcemixer_refuted"
   ],
   "note": "False for TimeSamples without calibration: the first source's array is overwritten by the mixed signal (exact effect proved); true when the first source delivers new arrays. BeamformerTime writes to its own buffer only (Buffer.v), not restated here."
  },
  {
   "property": "C26",
   "status": "partial",
   "theorems": [
    "C26_partial",
    "C26_kept",
    "C26_timereverse_refuted"
   ],
   "note": "False for the generators that reuse a buffer; exact characterisation for full blocks; a consumer that looks at each block at once sees the stream."
  },
  {
   "property": "C27",
   "status": "partial",
   "theorems": [
    "C27_partial",
    "C27_ldigest",
    "C27_int_refuted",
    "C27_float_refuted",
    "C27_array_refuted"
   ],
   "note": "The hashed message has no separators and prints large arrays abridged, so different settings can collide; injective with at most one setting of variable length, and for lists of digests."
  },
  {
   "property": "C28",
   "status": "partial",
   "theorems": [
    "C28_partial",
    "C28_necessary",
    "C28_instances",
    "C28_flow_partial",
    "C28_rectgrid_refuted",
    "C28_rectgrid_partial",
    "C28_na_partial",
    "C28_na_replaced",
    "C28_ind_low_refuted",
    "C28_na_refuted",
    "C28_flow_refuted"
   ],
   "note": "Holds exactly for properties whose depends_on covers what they use; RectGrid.pos (as written), PowerSpectra.ind_low, BeamformerEig.na and GeneralFlowEnvironment's table do not."
  },
  {
   "property": "C29",
   "status": "partial",
   "theorems": [
    "C29_partial",
    "C29_exact_partial",
    "C29_switch_refuted",
    "C29_open_refuted",
    "C29_count_refuted"
   ],
   "note": "holds while every object keeps to one file; switching the file raises KeyError and leaves the registry busy for ever; counter not decreased for dead objects"
  },
  {
   "property": "C30",
   "status": "proved",
   "theorems": [
    "C30_csm"
   ],
   "note": "The divisor of the average is num_blocks, which C10 shows to differ from the number of frames when block_size does not divide the record; all other parts are as stated."
  },
  {
   "property": "C31",
   "status": "proved",
   "theorems": [
    "C31_quadratic_form",
    "C31_data_nonnegative"
   ],
   "note": ""
  },
  {
   "property": "C32",
   "status": "proved",
   "theorems": [
    "C32_diagonal_removal",
    "C32_value"
   ],
   "note": ""
  },
  {
   "property": "C33",
   "status": "partial",
   "theorems": [
    "C33_kernels",
    "C33_components",
    "C33_components_rdiag_partial",
    "C33_components_rdiag_refuted",
    "C33_functional"
   ],
   "note": "All as stated without diagonal removal; with it each component map is clipped on its own, so the sum is an upper bound only (refuted for equality)."
  },
  {
   "property": "C34",
   "status": "proved",
   "theorems": [
    "C34_fast_path"
   ],
   "note": ""
  },
  {
   "property": "C35",
   "status": "proved",
   "theorems": [
    "C35_level",
    "C35_location",
    "C35_level_rdiag"
   ],
   "note": ""
  },
  {
   "property": "C36",
   "status": "partial",
   "theorems": [
    "C36_kernel",
    "C36_custom",
    "C36_modes_partial",
    "C36_modes_refuted",
    "C36_cached_reads_refuted"
   ],
   "note": "The kernels and the mode 'full' are right; in the modes 'single' (default) and 'block' numpy.invert of an int8 flag gives -1/-2, so only the last column (and later the one before it) is ever calculated (refuted, for all index sets of two or more)."
  },
  {
   "property": "C37",
   "status": "proved",
   "theorems": [
    "C37_nonnegative",
    "C37_fixed_point",
    "C37_convergence",
    "C37_unit_diagonal",
    "C37_nonunit_diagonal"
   ],
   "note": "Also convergence under diagonal dominance; the diagonal of the PSF is one for 'true level' and 'inverse' only, for the others the solved system is a different one."
  },
  {
   "property": "C38",
   "status": "proved",
   "theorems": [
    "C38_clean",
    "C38_decreasing"
   ],
   "note": ""
  },
  {
   "property": "C39",
   "status": "proved",
   "theorems": [
    "C39_consistent",
    "C39_result"
   ],
   "note": "Over the reals: the NaN that a zero maximum produces (0/0) is not modelled."
  },
  {
   "property": "C40",
   "status": "partial",
   "theorems": [
    "C40_accesses_partial",
    "C40_last_index_refuted",
    "C40_interrupted_refuted"
   ],
   "note": "True for all sequences of accesses without the index -1; result[-1] triggers no calculation and returns zeros (refuted). BeamformerOrth repeats additions after an interrupted calculation (refuted)."
  },
  {
   "property": "C41",
   "status": "proved",
   "theorems": [
    "C41_band",
    "C41_adjacent",
    "C41_line",
    "C41_helper"
   ],
   "note": ""
  },
  {
   "property": "C42",
   "status": "partial",
   "theorems": [
    "C42_integrate_partial",
    "C42_disjoint",
    "C42_fresh_refuted"
   ],
   "note": "True once the result has been read; on a fresh object the method returns an empty array (refuted)."
  },
  {
   "property": "C43",
   "status": "partial",
   "theorems": [
    "C43_index_partial",
    "C43_index3_partial",
    "C43_any_extent",
    "C43_own_point",
    "C43_nearest_refuted",
    "C43_bounds_refuted"
   ],
   "note": "True if the extents are multiples of the increment; otherwise another point can be nearer, or the index can be one past the end (refuted). For every extent the result is at most one spacing off."
  },
  {
   "property": "C44",
   "status": "partial",
   "theorems": [
    "C44_rect",
    "C44_circ",
    "C44_limits_order",
    "C44_rect3d_partial",
    "C44_multi",
    "C44_subdomain",
    "C44_poly_convex_partial",
    "C44_poly_simple_partial",
    "C44_poly_nearest_partial",
    "C44_rect3d_nearest_refuted",
    "C44_poly_nearest_refuted",
    "C44_convex_border_refuted"
   ],
   "note": "RectSector, CircSector, MultiSector: full. RectSector3D ignores z for the nearest point; PolySector and ConvexSector mark the first or second point; ConvexSector without border loses a whole simplex (refuted). PolySector's region is proved for simple polygons."
  },
  {
   "property": "C45",
   "status": "proved",
   "theorems": [
    "C45_wavefront",
    "C45_rest",
    "C45_reversed_flow"
   ],
   "note": "Positions over the reals; g = m (0/0) excluded."
  },
  {
   "property": "C46",
   "status": "partial",
   "theorems": [
    "C46_rotating",
    "C46_openjet_partial",
    "C46_openjet_crease",
    "C46_slotjet_partial",
    "C46_exit_plane_refuted"
   ],
   "note": "True for RotatingFlow everywhere and for both jets wherever a Jacobian is reported and the field is differentiable; in the nozzle exit plane outside the core the reported Jacobian is NaN although the field is differentiable."
  },
  {
   "property": "C47",
   "status": "partial",
   "theorems": [
    "C47_round_trip_refuted",
    "C47_round_trip_partial",
    "C47_cyl_coordinates",
    "C47_matrix_partial",
    "C47_matrix_refuted"
   ],
   "note": "False: cylToCart exchanges x and y. The exact effect of the round trip is proved, also with the optional matrix Q; cartToCyl alone is right. With Q given to cylToCart too the result is not even the exchanged point, because Q is applied to the triple (phi, r, z)."
  },
  {
   "property": "C48",
   "status": "partial",
   "theorems": [
    "C48_rays_partial",
    "C48_near_pole_partial",
    "C48_full_sphere_refuted"
   ],
   "note": "Proved for solid angles below 4 pi (with the rays inside the requested cap); at 4 pi the last ray is NaN; directions within 1e-10 of (0,0,-1) are met up to 1e-10."
  },
  {
   "property": "C49",
   "status": "partial",
   "theorems": [
    "C49_disjoint_partial",
    "C49_data_partial",
    "C49_values_partial",
    "C49_first_target",
    "C49_data_refuted",
    "C49_inverse_refuted",
    "C49_rectgrid_refuted",
    "C49_height_refuted",
    "C49_border_refuted"
   ],
   "note": "Circles of targets in the same height are disjoint without border; with the default border the midpoint counts twice, and targets that differ in height only overlap completely. With multi_assignment all orders of calls agree; and the three metrics are the level differences of the sector powers; without it the data are overwritten (so the inverse level error compares with what is left), and a RectGrid raises IndexError."
  },
  {
   "property": "C50",
   "status": "partial",
   "theorems": [
    "C50_output_partial",
    "C50_blocks",
    "C50_end",
    "C50_end_refuted",
    "C50_weights_refuted"
   ],
   "note": "Without weights the rows yielded are the delay-and-sum rows for every block size. False as stated: after the last row a ValueError is raised unless the largest delay fits the last block (C50_end gives the exact condition), and spatial weights are multiplied repeatedly into the overlap of the buffer windows."
  },
  {
   "property": "C51",
   "status": "partial",
   "theorems": [
    "C51_static_partial",
    "C51_traj_partial",
    "C51_channels_refuted",
    "C51_supersonic_refuted"
   ],
   "note": "Reads stay inside the window when the source has as many channels as microphones and, for moving grids, when the grid is slower than sound (proved without weights). Refuted otherwise: channel count is never checked; supersonic approach makes the row count of the last block wrong."
  },
  {
   "property": "C52",
   "status": "partial",
   "theorems": [
    "C52_plain_partial",
    "C52_clip_refuted",
    "C52_empty_block_refuted"
   ],
   "note": "True when nothing is clipped. False in general: the clipping threshold is relative to the block maximum; an empty block (last block of BeamformerTime) raises ValueError."
  },
  {
   "property": "C53",
   "status": "partial",
   "theorems": [
    "C53_partial",
    "C53_interval",
    "C53_zero_refuted"
   ],
   "note": "t_end = 0.0 counts as not given."
  },
  {
   "property": "C54",
   "status": "proved",
   "theorems": [
    "C54_calib"
   ],
   "note": ""
  },
  {
   "property": "C55",
   "status": "proved",
   "theorems": [
    "C55_micgeom"
   ],
   "note": ""
  },
  {
   "property": "C56",
   "status": "proved",
   "theorems": [
    "C56",
    "C56_missing"
   ],
   "note": ""
  },
  {
   "property": "C57",
   "status": "partial",
   "theorems": [
    "C57_partial",
    "C57_lag",
    "C57_eva_partial",
    "C57_refuted",
    "C57_eva_refuted"
   ],
   "note": "The checksum is taken from the matrix before the assignment."
  },
  {
   "property": "C58",
   "status": "proved",
   "theorems": [
    "C58",
    "C58_depth"
   ],
   "note": "Value formula included; depth <= -2 gives nan (square root of a negative number, total in the model)."
  },
  {
   "property": "C59",
   "status": "proved",
   "theorems": [
    "C59_levels"
   ],
   "note": ""
  },
  {
   "property": "C60",
   "status": "proved",
   "theorems": [
    "C60_component",
    "C60_orth_sum"
   ],
   "note": ""
  },
  {
   "property": "C61",
   "status": "partial",
   "theorems": [
    "C61_rfft_num_samples_partial",
    "C61_rfft_num_samples_refuted"
   ],
   "note": "True without overlap, false with overlap for every source of at least two blocks."
  },
  {
   "property": "C62",
   "status": "proved",
   "theorems": [
    "C62_emission_time"
   ],
   "note": ""
  },
  {
   "property": "C63",
   "status": "partial",
   "theorems": [
    "C63_at_rest_partial",
    "C63_start_time_refuted"
   ],
   "note": "True for start = 0; otherwise start is counted twice (refuted)."
  },
  {
   "property": "C64",
   "status": "partial",
   "theorems": [
    "C64_irfft_of_rfft",
    "C64_window",
    "C64_energy_scaling_refuted"
   ],
   "note": "True as stated for scaling 'none'; the other scalings double the inner frequencies, which IRFFT does not undo (refuted)."
  },
  {
   "property": "C65",
   "status": "partial",
   "theorems": [
    "C65_auto_power_partial",
    "C65_psd_refuted"
   ],
   "note": "The power is the mean square plus the squared mean plus the squared alternating mean (bins 0 and Nyquist doubled); the 'psd' scaling is wrong by the factor fs^2 (refuted)."
  },
  {
   "property": "C66",
   "status": "partial",
   "theorems": [
    "C66_distance",
    "C66_simple",
    "C66_joined",
    "C66_far",
    "C66_sign_kept",
    "C66_convex_partial",
    "C66_duplicate_vertex_refuted",
    "C66_crossing_refuted"
   ],
   "note": "Distance for every polygon with distinct neighbouring vertices; distance and sign for every simple polygon, convex or not, in either orientation, inside being an odd number of crossed sides, which is also proved constant along polylines that avoid the boundary and false far away. A vertex given twice makes outside points inside, and a polygon that crosses itself gets a negative sign in one of its lobes (refuted)."
  },
  {
   "property": "C67",
   "status": "partial",
   "theorems": [
    "C67_output_partial",
    "C67_blocks_refuted",
    "C67_trajectory_refuted"
   ],
   "note": "For grids slower than sound and no weights the output is a prefix of the delay-and-sum rows, complete in all blocks up to the first that with its largest delay does not fit. False as stated: the prefix depends on num; a trajectory that ends inside the last block raises RuntimeError."
  },
  {
   "property": "C68",
   "status": "partial",
   "theorems": [
    "C68_rigid_partial",
    "C68_parallel_refuted"
   ],
   "note": "True unless rvec is parallel to the velocity, where the positions are NaN."
  },
  {
   "property": "C69",
   "status": "partial",
   "theorems": [
    "C69_dirac",
    "C69_candidates",
    "C69_channels",
    "C69_largest_kept",
    "C69_few",
    "C69_rect_partial",
    "C69_rect_refuted",
    "C69_warning_refuted",
    "C69_warning_partial",
    "C69_guess_offset",
    "C69_guess_refuted"
   ],
   "note": "True for 'dirac'. False as stated: 'rect' reports edges of the first 2048 samples one sample early (exact positions proved); the warning about uneven revolutions raises AttributeError for sources without start; the guessed threshold ignores a signal offset. hunk_length between 0 and 1, one real number per sample."
  },
  {
   "property": "C70",
   "status": "partial",
   "theorems": [
    "C70_constant_partial",
    "C70_average",
    "C70_few",
    "C70_rpm_refuted",
    "C70_angle_refuted",
    "C70_speedup_refuted"
   ],
   "note": "Proved for constant speed and one trigger per revolution, for every spline routine that reproduces straight lines. False otherwise: with several triggers per revolution rpm counts triggers and the angle is only right modulo 2 pi / trigger_per_revo; a change of speed makes the lookup run out of the recorded triggers (ValueError)."
  },
  {
   "property": "C71",
   "status": "partial",
   "theorems": [
    "C71_rotation",
    "C71_everywhere",
    "C71_steady_field",
    "C71_identity_partial",
    "C71_Q_refuted"
   ],
   "note": "Array dimensions '1D' and 'ring' with method 'linear' and constant rotation; inverse distance weighting is C123; the other methods (splines, Delaunay meshes, radial basis functions) are not modelled. False for Q different from the identity, which is ignored for the virtual microphones."
  },
  {
   "property": "C72",
   "status": "proved",
   "theorems": [
    "C72_amplitudes",
    "C72_monopole",
    "C72_squares"
   ],
   "note": "Delays of a whole number of samples at the grid point of the source, as stated; spatial weights off."
  },
  {
   "property": "C73",
   "status": "partial",
   "theorems": [
    "C73_bound_partial",
    "C73_source",
    "C73_true_level_refuted"
   ],
   "note": "Bound and level formula as stated. The last sentence is false: the normalisation is that of 'classic', so 'true level' is wrong by (S/N)^2 (refuted). The inverse matrix is any matrix satisfying the inverse equation."
  },
  {
   "property": "C74",
   "status": "partial",
   "theorems": [
    "C74_scale",
    "C74_strengths",
    "C74_position",
    "C74_peak_refuted",
    "C74_noise_free_refuted"
   ],
   "note": "Scale where the denominator does not vanish, independence of powers, and zero denominator at the sources as stated. There is no peak in exact arithmetic: a vanishing denominator has no finite value and sets the rest of the map to zero; without noise the whole map is 0/0."
  },
  {
   "property": "C75",
   "status": "proved",
   "theorems": [
    "C75_decreasing",
    "C75_source"
   ],
   "note": "Real gamma; power of a non-negative base."
  },
  {
   "property": "C76",
   "status": "partial",
   "theorems": [
    "C76_equations",
    "C76_cost",
    "C76_gradient",
    "C76_optimum",
    "C76_exact_partial",
    "C76_nnls_refuted",
    "C76_distance_refuted"
   ],
   "note": "Equations, cost, gradient and global optimality as stated. False for 'NNLS': scikit-learn's LinearRegression fits an intercept that is thrown away, so the result is not the non-negative least squares solution unless the model is exact; that the diagonal has double weight makes the minimum differ from that of the Frobenius distance. The optimisers themselves are not modelled."
  },
  {
   "property": "C77",
   "status": "partial",
   "theorems": [
    "C77_gradient",
    "C77_cost",
    "C77_order",
    "C77_index0_refuted"
   ],
   "note": "Cost, gradient and order independence as stated, for any optimiser that is a function of matrix and initial guess. The last sentence is false: index 0 is never calculated."
  },
  {
   "property": "C78",
   "status": "partial",
   "theorems": [
    "C78_blocks_partial",
    "C78_decomposition",
    "C78_one_point",
    "C78_squares",
    "C78_block_size_refuted",
    "C78_negative_refuted"
   ],
   "note": "Decomposition, strict decrease, the one-point formula and the squares without diagonal removal as stated. False: the result depends on the block size, and with r_diag BeamformerCleantSq can be negative because the difference is not clipped and only the autopower of the last iteration is subtracted."
  },
  {
   "property": "C79",
   "status": "partial",
   "theorems": [
    "C79_cache",
    "C79_covered",
    "C79_digest",
    "C79_gaps",
    "C79_line_source_refuted",
    "C79_calib_refuted"
   ],
   "note": "A shared cache file is right exactly when equal digests mean equal streams, and the digest decides the result exactly when no attribute read is missing from it. False of 12 of the 60 classes tabulated; shown with the model of LineSource (num_sources, length not hashed) and of Calib (invalid_channels not hashed, wrong data served by Cache). The table of attributes was taken from the source by hand."
  },
  {
   "property": "C80",
   "status": "partial",
   "theorems": [
    "C80_rows_partial",
    "C80_reversed",
    "C80_plane",
    "C80_directivity_partial",
    "C80_jump",
    "C80_jump_refuted"
   ],
   "note": "Rows, sign, plane and (when both poles round to the same value of the signal) directivity as stated. False: when the delays of the poles round to different values, the difference divided by the distance of the poles (1e-5 |direction| c/fs) is added, C80_jump. A last empty block is yielded when num divides the number of samples."
  },
  {
   "property": "C81",
   "status": "partial",
   "theorems": [
    "C81_at_rest_partial",
    "C81_blocks",
    "C81_reversed",
    "C81_conv_amp_refuted",
    "C81_axis_refuted",
    "C81_silent_refuted",
    "C81_order_refuted"
   ],
   "note": "At rest (rvec = 0) and for the sign as stated. False: conv_amp has no effect whatsoever; with rvec an axis ahead is turned to the side and the default axis gives silence; all channels use the position of the source at the emission time of the first microphone."
  },
  {
   "property": "C82",
   "status": "partial",
   "theorems": [
    "C82_rows_partial",
    "C82_coefficients",
    "C82_offset_refuted",
    "C82_silent_refuted"
   ],
   "note": "Block size independence, the weighting (real coefficients) and the ValueError as stated. False: the signal is read PI/30 samples ahead, so that at some distances the neighbouring sample is delivered (C82_offset_refuted); only the real part of the weighted block is kept, so that a monopole with coefficient i is silent."
  },
  {
   "property": "C83",
   "status": "partial",
   "theorems": [
    "C83_turned_partial",
    "C83_length",
    "C83_turned_refuted",
    "C83_azimuth",
    "C83_elevation_partial",
    "C83_elevation_refuted"
   ],
   "note": "Rotations about the y axis, the length and the azimuth as stated. False of other rotations: the elevations of direction and microphone are added, so that a half turn about the z axis reverses the sign of a dipole pattern. The elevation lies in [pi/2, 5 pi/2]."
  },
  {
   "property": "C84",
   "status": "partial",
   "theorems": [
    "C84_ahead_partial",
    "C84_origin",
    "C84_receding_refuted"
   ],
   "note": "The code uses the Mach number of the motion away from the origin instead of towards the microphone (C84_origin, for any trajectory, once the iteration has converged). This agrees with the statement for microphones straight ahead as seen from the origin (C84_ahead_partial). A source that recedes with half the speed of sound becomes four times as loud instead of 4/9 (C84_receding_refuted)."
  },
  {
   "property": "C85",
   "status": "partial",
   "theorems": [
    "C85_at_rest_partial",
    "C85_conv_amp",
    "C85_shift_refuted",
    "C85_last_only_refuted",
    "C85_order_refuted"
   ],
   "note": "At rest (rvec = 0) it is a LineSource that starts at 2 start + 1/fs: one sample late, and start counted twice. conv_amp acts on the last monopole only. All distances are taken at the emission time of the first microphone, so that the order of the microphones matters."
  },
  {
   "property": "C86",
   "status": "partial",
   "theorems": [
    "C86_map_partial",
    "C86_components",
    "C86_position",
    "C86_order_refuted",
    "C86_last_refuted"
   ],
   "note": "As stated while eva_list has no more than n entries. False for longer lists, which the documentation allows: neighbouring frequencies share columns, so that positions depend on the order of the requests (C86_order_refuted), and the last frequency raises IndexError (C86_last_refuted)."
  },
  {
   "property": "C87",
   "status": "partial",
   "theorems": [
    "C87_ridge",
    "C87_map_partial",
    "C87_reduced",
    "C87_no_regularisation",
    "C87_regularisation_refuted",
    "C87_modes_refuted",
    "C87_no_modes"
   ],
   "note": "Optimality (for the regularisation actually stored) and, with beta >= 1, the map as stated. False: the regularisation is stored in an integer array, so that its fraction is lost and values below 1 mean none; with beta < 1 only the points kept for the last mode are shown, a stronger source found with an earlier mode is missing from the map. Without a positive eigenvalue UnboundLocalError is raised."
  },
  {
   "property": "C88",
   "status": "partial",
   "theorems": [
    "C88_filter_partial",
    "C88_prefix",
    "C88_empty",
    "C88_centred",
    "C88_leading_refuted"
   ],
   "note": "As stated when the first coefficients of ar and ma are not zero. False for leading zeros in ma, which tf2sos drops, so that the delay they mean is lost: ma = [0, 0, 1] delivers the noise two samples early. The noise is any sequence per seed; the factorisation into second-order sections is not modelled."
  },
  {
   "property": "C89",
   "status": "partial",
   "theorems": [
    "C89_keeps",
    "C89_sine_partial",
    "C89_sine_refuted"
   ],
   "note": "Length and kept samples as stated. The sine is reproduced if the signal holds a whole number of periods, otherwise it is not (C89_sine_refuted), because scipy's resample continues the signal periodically."
  },
  {
   "property": "C90",
   "status": "partial",
   "theorems": [
    "C90_announced_partial",
    "C90_average_partial",
    "C90_mixer_refuted",
    "C90_time_convolve_refuted",
    "C90_beamformer_time_refuted",
    "C90_csm_scaled"
   ],
   "note": "Proved by induction over all chains of Calib, MaskedTimeOut, ChannelMixer, TimePower, TimeCumAverage, TimeReverse, Filter, FiltFiltOctave, Average and Mixer, given that averages leave no remainder and mixed sources are long enough. False for Mixer with a shorter source, Average with a remainder, TimeConvolve (longer by the kernel minus one) and BeamformerTime (shorter by the largest delay); the effect on a cross spectral matrix is a wrong scale (C90_csm_scaled)."
  },
  {
   "property": "C91",
   "status": "partial",
   "theorems": [
    "C91_rows_partial",
    "C91_one_kernel_refuted",
    "C91_num_samples_refuted"
   ],
   "note": "With one column per microphone and for block sizes as in C12 as stated. False for a single column (as in the documented example): all microphones but the first are silent; num_samples is that of the signal, not of the result."
  },
  {
   "property": "C92",
   "status": "partial",
   "theorems": [
    "C92_full_partial",
    "C92_diagonal",
    "C92_welch",
    "C92_triangle_refuted",
    "C92_one_channel"
   ],
   "note": "As stated for calc_mode 'full' and for one channel. With two or more channels 'upper' and 'lower' always raise ValueError (C92_triangle_refuted). C92_welch uses num_blocks as PowerSpectra does (C30)."
  },
  {
   "property": "C93",
   "status": "partial",
   "theorems": [
    "C93_values_partial",
    "C93_bars",
    "C93_bardata",
    "C93_overlap_refuted",
    "C93_gap_refuted",
    "C93_low_refuted",
    "C93_empty_refuted"
   ],
   "note": "Values, range of bands and bars as stated. False: the edges are computed from rounded centre frequencies, so lines are counted twice (overlap) or not at all (gap); the lowest band always begins below the first line when 31.5 Hz is too low; a spectrum below the lowest band raises ValueError with bar=True."
  },
  {
   "property": "C94",
   "status": "proved",
   "theorems": [
    "C94_average",
    "C94_step",
    "C94_decay",
    "C94_bounds"
   ],
   "note": "The weights as exponentials of the age of the sample, for every block size; Filter.result as in C07."
  },
  {
   "property": "C95",
   "status": "partial",
   "theorems": [
    "C95_response",
    "C95_weight_partial",
    "C95_flat",
    "C95_nominal_refuted"
   ],
   "note": "Every stable Filter answers a tone with the magnitude of its transfer function, with an exponentially decaying transient. The gain of A and C is the nominal gain at the frequency fs/pi*tan(pi f/fs) instead of f, so a tone at fs/2 is removed. tf2sos enters by its post-condition (same numerator and denominator)."
  },
  {
   "property": "C96",
   "status": "partial",
   "theorems": [
    "C96_edges",
    "C96_too_high",
    "C96_filtfilt_partial",
    "C96_bank",
    "C96_filtfilt_refuted",
    "C96_overlap_refuted",
    "C96_bank_stale_refuted"
   ],
   "note": "FiltOctave and third-octave FiltFiltOctave as stated. FiltFiltOctave refuses octave bands below the limit; adjacent bands of a bank overlap; a bank keeps its first coefficients when lband or hband change."
  },
  {
   "property": "C97",
   "status": "partial",
   "theorems": [
    "C97_value_partial",
    "C97_temperature",
    "C97_humidity",
    "C97_bounds",
    "C97_negative_humidity_refuted",
    "C97_percent_refuted",
    "C97_enhancement_refuted"
   ],
   "note": "Polynomial, range checks, monotonicity and bounds as stated for nonnegative humidity. The enhancement factor is evaluated with Kelvin instead of degrees Celsius, so the vapour fraction is 4-6 % too high; humidities below 0 or above 100 % and negative CO2 contents are accepted (a negative speed of sound is possible)."
  },
  {
   "property": "C98",
   "status": "partial",
   "theorems": [
    "C98_power_partial",
    "C98_one_ring_refuted",
    "C98_outermost_refuted"
   ],
   "note": "Power proportional to the ring's area with the edges the code uses. Arrays with one ring (circular arrays) raise IndexError; the outer edge of the outermost ring is calculated from the midpoints instead of the rings, so it gets too little power."
  },
  {
   "property": "C99",
   "status": "partial",
   "theorems": [
    "C99_line_partial",
    "C99_one_point_refuted",
    "C99_merge_partial",
    "C99_subgrids_partial",
    "C99_subgrids_refuted"
   ],
   "note": "LineGrid for at least two points and a nonzero direction; one point (the default) divides by zero. MergeGrid's points as stated; subgrids is neither in the order of the points nor of their number."
  },
  {
   "property": "C100",
   "status": "partial",
   "theorems": [
    "C100_circle_partial",
    "C100_polygon_partial",
    "C100_simple_polygon_partial",
    "C100_rectangle_partial",
    "C100_box_axis_partial",
    "C100_outside_refuted",
    "C100_index_refuted"
   ],
   "note": "Circles and simple polygons exactly, for grids whose extent differs from a multiple of the increment by less than half of it; else an index may be out of range. Rectangles and boxes (extents multiples of the increment) also select points up to half an increment outside."
  },
  {
   "property": "C101",
   "status": "partial",
   "theorems": [
    "C101_values_partial",
    "C101_file",
    "C101_reuse",
    "C101_overwrite",
    "C101_untouched",
    "C101_csm_partial",
    "C101_csm_overwrite",
    "C101_csm_uncached",
    "C101_closed_node_refuted",
    "C101_mode_change_refuted",
    "C101_csm_readonly_refuted",
    "C101_csm_assign_refuted"
   ],
   "note": "Values, reuse and the effect on files as stated while the mode is not changed and no two live objects with the same settings overwrite. pytables 'overwrite': a second object removes the node the first still uses; an object that got its node in a writing mode still writes after the change to 'readonly'; a cached cross-spectral matrix that is zero raises in 'readonly'; csm is the array in the file, so a user's assignment changes later runs."
  },
  {
   "property": "C102",
   "status": "partial",
   "theorems": [
    "C102_limited_partial",
    "C102_unlimited",
    "C102_none",
    "C102_settings_partial",
    "C102_overflow_refuted",
    "C102_running_refuted",
    "C102_rate_refuted"
   ],
   "note": "Blocks and numbers of samples as stated for any recording. The overflow flag is overwritten by every block, running stays true after an early close, sample_freq keeps the rate of the first device."
  },
  {
   "property": "C103",
   "status": "partial",
   "theorems": [
    "C103_range_partial",
    "C103_open_partial",
    "C103_index_partial",
    "C103_default",
    "C103_read_partial",
    "C103_integrate",
    "C103_last_line_refuted",
    "C103_above_refuted",
    "C103_read_refuted",
    "C103_forget_refuted"
   ],
   "note": "All lines but the last exactly as stated, and the lines of integrate. No upper limit but None includes the line at half the sampling frequency; (lo, None) above it still selects that line; freq_range cannot be read after (lo, None) and reads None for the upper limit once ind_high was None; setting ind_low forgets freq_range."
  },
  {
   "property": "C104",
   "status": "partial",
   "theorems": [
    "C104_decomposition",
    "C104_power",
    "C104_band_partial",
    "C104_line_partial",
    "C104_band_power",
    "C104_empty_band_refuted",
    "C104_above_refuted"
   ],
   "note": "Decomposition, signs, sums and bands with at least one line as stated (eigh is assumed to return an ordered orthonormal eigendecomposition). A band between two lines delivers the line above it instead of zero; above the last line IndexError."
  },
  {
   "property": "C105",
   "status": "partial",
   "theorems": [
    "C105_decomposition",
    "C105_blocks_partial",
    "C105_rest",
    "C105_end_refuted"
   ],
   "note": "Decomposition, rows and the case at rest as stated, over the reals (the code defaults to double, single precision is not modelled). When the last block has no rows, which a receding grid produces, the generator ends with ValueError where BeamformerTimeTraj ends."
  },
  {
   "property": "C106",
   "status": "partial",
   "theorems": [
    "C106_transfer_partial",
    "C106_refused",
    "C106_index",
    "C106_steer",
    "C106_phase",
    "C106_zero_refuted",
    "C106_single_refuted"
   ],
   "note": "For two microphones or more and a reference other than the scalar 0 exactly as stated, for the distances of any environment. ref = 0 is accepted but every use raises TypeError (grid.pos is called); a single microphone with two grid points or more raises ValueError."
  },
  {
   "property": "C107",
   "status": "partial",
   "theorems": [
    "C107_binary64",
    "C107_counts",
    "C107_channels",
    "C107_arange_partial",
    "C107_arange_refuted"
   ],
   "note": "The integer counts exactly as stated (sizes up to 1/(8u), 2^50 in double precision, no overflow). The number of positions of traj: exact away from whole numbers of steps, n or n + 1 for a whole number n of steps; traj(0.1, 0.4, 0.1) has four positions, the last at t_end."
  },
  {
   "property": "C108",
   "status": "partial",
   "theorems": [
    "C108_steps_partial",
    "C108_position",
    "C108_index_partial",
    "C108_own_partial",
    "C108_last_refuted"
   ],
   "note": "Counts, places and indices as stated for all points but the last, which rounding can put outside the range: index() then raises ValueError, for example with x_min=-1, x_max=0.1, increment=0.1."
  },
  {
   "property": "C109",
   "status": "partial",
   "theorems": [
    "C109_lines",
    "C109_select_partial",
    "C109_nominal_refuted"
   ],
   "note": "Lines as stated; synthetic at the frequency that fftfreq() reports delivers its line. At the nominal frequency k fs / n it need not: at 50 kHz with blocks of 64 samples synthetic(6250, 0) is the line above (with a warning)."
  },
  {
   "property": "C110",
   "status": "partial",
   "theorems": [
    "C110_elements",
    "C110_import",
    "C110_missing",
    "C110_grid",
    "C110_roundtrip_partial",
    "C110_name_refuted",
    "C110_again_refuted",
    "C110_empty_refuted",
    "C110_center_partial",
    "C110_aperture_partial",
    "C110_origin_refuted"
   ],
   "note": "Reading as stated; a file without positions is an error. Export and import as stated if the name of the file has no characters that XML reserves (a file named 'nose & tail.xml' cannot be read) and if the new geometry has no invalid channels. Center (up to 1e-16) and aperture as stated unless all microphones are at the origin, when both are None."
  },
  {
   "property": "C111",
   "status": "partial",
   "theorems": [
    "C111_stem",
    "C111_plain",
    "C111_chain",
    "C111_single",
    "C111_channels_partial",
    "C111_channels_refuted",
    "C111_origin_refuted"
   ],
   "note": "Basenames as stated; behind a Cache the alternative is replaced by 'void'. Names of wave files differ for single channels and for channels below ten; channels [1, 23] and [12, 3] are written to the same file, as are different processing steps of the same source."
  },
  {
   "property": "C112",
   "status": "partial",
   "theorems": [
    "C112_csm",
    "C112_indices",
    "C112_range_refuted",
    "C112_sessions",
    "C112_cache_refuted",
    "C112_frequencies_refuted"
   ],
   "note": "Matrix and frequencies as stated; ind_low and ind_high are ignored. Cached results are those of the own measurement exactly if the digests differ; the digest of CsmAIAABenchmark is that of the file name, and that of PowerSpectraImport leaves out the frequencies, so the rows of another measurement are returned."
  },
  {
   "property": "C113",
   "status": "partial",
   "theorems": [
    "C113_level_partial",
    "C113_location",
    "C113_silent",
    "C113_hanning",
    "C113_window_refuted"
   ],
   "note": "With the default window 'Rectangular' as stated, if the block size divides overlap times length; otherwise all levels are too small by the ratio of frames to num_blocks (C10). With 'Hanning' a tone at a quarter of the sampling frequency has 2 (bs - 1) / (3 bs) of its level on its line, for every block size."
  },
  {
   "property": "C114",
   "status": "partial",
   "theorems": [
    "C114_exact",
    "C114_close",
    "C114_exact_refuted"
   ],
   "note": "Exact from the first sample on if the delays are whole numbers of samples; otherwise, from the second sample on, the error is at most (up + 1) / 2 steps of the up-sampled signal over the distance to the reference. Not exact in general: the source takes the nearest sample of its signal, the beamformer interpolates linearly, so with delays of half a sample an alternating signal becomes constant."
  },
  {
   "property": "C115",
   "status": "partial",
   "theorems": [
    "C115_base",
    "C115_capon",
    "C115_damas",
    "C115_clean",
    "C115_cleansc",
    "C115_functional",
    "C115_eigenvalues",
    "C115_eig_partial",
    "C115_music_partial",
    "C115_gib_refuted"
   ],
   "note": "As stated, from the samples on, for all methods but GIB; BeamformerEig needs a simple eigenvalue and MUSIC a gap above the noise subspace (see C116). BeamformerGIB ('Suzuki') rounds its regularisation down to an integer, which depends on the level: doubling all samples of a source found with its power leaves it 9 per cent too low."
  },
  {
   "property": "C116",
   "status": "partial",
   "theorems": [
    "C116_eigenvalues",
    "C116_functional",
    "C116_eig_partial",
    "C116_music_partial",
    "C116_eig_refuted",
    "C116_music_refuted"
   ],
   "note": "Eigenvalues and BeamformerFunctional as stated; BeamformerEig for simple eigenvalues, BeamformerMusic if there is a gap above the noise subspace. Otherwise false: two decompositions of the same matrix with equal eigenvalues give different maps."
  },
  {
   "property": "C117",
   "status": "partial",
   "theorems": [
    "C117_removed_partial",
    "C117_ring",
    "C117_full_partial",
    "C117_full_refuted"
   ],
   "note": "With diagonal removal: exactly as stated for the first pass up to an explicit error (3 rho + rho^2)/(1 - rho) to the 20th, for every steering formulation and geometry in which no microphone has more than a fifth of the weights; for all passes in closed form if the source has the same distance from all microphones. Several passes with different distances are not covered. Without diagonal removal (r_diag = False) the statement is false: the inner iteration removes the diagonal all the same, and the clean level is too large, by more than 1/(2n) with enough passes, by more than 30 % with two microphones and default parameters."
  },
  {
   "property": "C118",
   "status": "partial",
   "theorems": [
    "C118_order",
    "C118_late",
    "C118_removed",
    "C118_remove_unknown",
    "C118_remove_all",
    "C118_removed_silent",
    "C118_remove_partial",
    "C118_remove_refuted",
    "C118_late_refuted"
   ],
   "note": "Order, removal and late registration as stated while the buffer is large enough. Two parts are false: removing an object registered with 'error' or 'warning' ends the generators of other objects, started before, with a KeyError (no effect is proved for treatment 'none'); and an object registered with 'error' while a generator is running loses blocks without an error, since that generator inspects only the objects registered when it started."
  },
  {
   "property": "C119",
   "status": "partial",
   "theorems": [
    "C119_exact",
    "C119_rotating_partial",
    "C119_conserved_partial",
    "C119_scale",
    "C119_uniform",
    "C119_core_partial",
    "C119_openjet_refuted",
    "C119_slotjet_refuted",
    "C119_start_partial",
    "C119_start_refuted"
   ],
   "note": "The slowness changes with -J s where rays need J^T s (J the Jacobian of the velocity). Both agree exactly where J s = - J^T s: everywhere in a RotatingFlow, in the core of a jet and in uniform flow, where the travel times are those of UniformFlowEnvironment. False at every point of the shear layers of OpenJet and SlotJet: rays crossing them bend wrongly. Rays start backwards where the flow is faster than sound. The numerical integrator, the hull test and the interpolation between the points are not modelled."
  },
  {
   "property": "C120",
   "status": "partial",
   "theorems": [
    "C120_moved",
    "C120_front_back",
    "C120_unit_of_length",
    "C120_reference",
    "C120_rays",
    "C120_slotjet",
    "C120_moved_refuted"
   ],
   "note": "As stated (beamformers, PSF, CLEAN-SC, Capon, MUSIC, functional, BeamformerTime, PointSource; Environment and UniformFlowEnvironment; also rays and SlotJet velocities turn with the flow), except the last sentence: SteeringVector.ref stays at the origin, so moving only microphones and grid changes maps of types 'inverse' and 'true level'. OpenJet is tied to the x axis and has no orientation to turn."
  },
  {
   "property": "C121",
   "status": "partial",
   "theorems": [
    "C121_removed",
    "C121_no_influence",
    "C121_submatrix",
    "C121_count",
    "C121_marks_refuted",
    "C121_time_refuted"
   ],
   "note": "As stated for BeamformerBase and BeamformerTime, with and without calibration, except the last sentence: BeamformerBase compares only the numbers of channels (different numbers are refused, different channels of the same number are not and give a wrong map), BeamformerTime compares nothing and pairs positions with the wrong signals."
  },
  {
   "property": "C122",
   "status": "partial",
   "theorems": [
    "C122_float64",
    "C122_stopped",
    "C122_masked",
    "C122_float32_partial",
    "C122_copy",
    "C122_integers",
    "C122_default_refuted",
    "C122_nothing_refuted"
   ],
   "note": "Holds for precision 'float64'. The default precision 'float32' changes numbers: each becomes the nearest float32 (proved nearest, with the error bound, order kept, copies stable), 2^24+1 is read as 2^24 and 2^128 as infinity. A stream without samples is written to a file that cannot be read. Metadata and the HDF5 libraries are outside the model."
  },
  {
   "property": "C123",
   "status": "partial",
   "theorems": [
    "C123_stream",
    "C123_range",
    "C123_aligned_partial",
    "C123_plane_refuted",
    "C123_count_refuted"
   ],
   "note": "Weighted mean, block sizes and range as stated, for every argsort (any order of equal distances). The last sentence is false: the z coordinate of virtual microphones is replaced by zero, so for an array in another plane a virtual microphone at the place of a real one does not get its channel; and unless there are as many virtual as real microphones (or one) a ValueError is raised. interp_at_zero and 3D arrays are not modelled."
  },
  {
   "property": "C124",
   "status": "partial",
   "theorems": [
    "C124_weights_partial",
    "C124_frozen_partial",
    "C124_virtual_refuted"
   ],
   "note": "False: the coordinates are cached at the first sample and never renewed; mics, mics_virtual and Q assigned later are ignored (proved for every history). num_IDW and p_weight take effect."
  },
  {
   "property": "C125",
   "status": "partial",
   "theorems": [
    "C125_map",
    "C125_floor",
    "C125_level",
    "C125_audio",
    "C125_double_refuted"
   ],
   "note": "The bounds hold for every rounding; 2 sqrt 2 (growth - 1) is at most 0.5 per cent up to 1000 microphones and phases up to 10000. The last sentence is false: the phase k*r is converted to np.float32, so the error grows with the phase times 2^-24; with phases of 8192 an error of more than 2^-13 of the autopower occurs even if every other operation is exact. The floor is proved for 'classic'; for the other formulations C125_map gives the bound with their weights. Overflow, underflow and the rounding of the distances themselves are outside."
  },
  {
   "property": "C126",
   "status": "partial",
   "theorems": [
    "C126_descent",
    "C126_optimal",
    "C126_stationary",
    "C126_recovers",
    "C126_diagonal_refuted"
   ],
   "note": "Holds with the diagonal; no diagonal dominance is needed. The first sweep needs a positive semidefinite matrix for the descent (a map with negative values may precede it). False with r_diag: the point spread function handed to the solver is that of the full matrix, so even a single source on the only grid point gets the wrong strength after any number of sweeps. For the other formulations the matrix cannot be made symmetric this way or has no unit diagonal, see C37. The relaxation must not exceed one here."
  },
  {
   "property": "C127",
   "status": "partial",
   "theorems": [
    "C127_unit",
    "C127_nnls",
    "C127_nnls_solved",
    "C127_lp_partial",
    "C127_lasso_zero",
    "C127_lp_refuted",
    "C127_same_refuted",
    "C127_lasso_refuted"
   ],
   "note": "Unit multiplier and 'NNLS' as stated, for every steering type (with the diagonal; without it see C126). False for 'LP': the objective uses the row sums of the matrix where the sum of the map needs column sums; the strengths are found only if both are equal. False for 'LassoLars': the intercept that scikit-learn fits by default is dropped, at least one strength becomes zero and the others too small however small the penalty. 'NNLS' minimises the distance of the maps, not of the matrices, so that inexact data give another map than BeamformerDamas. The solvers are taken to return solutions of their documented problems; 'OMPCV' is not modelled."
  },
  {
   "property": "C128",
   "status": "partial",
   "theorems": [
    "C128_full_partial",
    "C128_interrupted_refuted",
    "C128_frequency_refuted"
   ],
   "note": "Holds for frequencies equal or more than 0.01 Hz apart if no calculation in the modes 'full' and 'block' is broken off ('single' may be). False otherwise: 'full' sets all flags before it calculates, so that a calculation that is broken off leaves a file from which zeros are read for ever; and the frequency is part of the node name with two decimals only. One process at a time; global caching 'all'."
  },
  {
   "property": "C129",
   "status": "partial",
   "theorems": [
    "C129_leakage",
    "C129_inverse",
    "C129_inverse_refuted"
   ],
   "note": "False: for two grid points whose distances differ by whole wavelengths at every microphone the product of the mutual point spread values is at least one, for any number of microphones; then the iteration with damp 1 gives zero for the first point and the level of the dirty map for the second from the first sweep on, whatever the strengths. What does hold: strengths are a fixed point and are approached for diagonally dominant matrices (C37); method 'NNLS' of BeamformerDamasPlus finds them (C127)."
  },
  {
   "property": "C130",
   "status": "partial",
   "theorems": [
    "C130_unit",
    "C130_penalty",
    "C130_misfit",
    "C130_unit_refuted",
    "C130_sign_refuted"
   ],
   "note": "Holds for 'LassoLars' and 'fmin_l_bfgs_b'; 'NNLS' is covered by C76. False for 'FISTA' and 'Split_Bregman': their penalty is not multiplied by the unit, so that a unit u divides alpha by u (with the default 1e9 it has practically no effect), and they have no bounds, so that strengths may be negative, even the only possible ones. The misfit is at most alpha / (kappa u) times the sum of the strengths. The solvers are taken to return solutions of their documented problems, the weight kappa of the residual in them is left open; 'LassoLarsBIC' and 'OMPCV' are not modelled."
  },
  {
   "property": "C131",
   "status": "partial",
   "theorems": [
    "C131_mean",
    "C131_removed",
    "C131_lines_refuted",
    "C131_diagonal_refuted"
   ],
   "note": "Without removal of the diagonal it holds for every steering type if the lines at frequency zero and at half the sampling frequency are counted half: the cross spectral matrix doubles all lines of the one-sided spectrum, these two included (constant sound of mean square 1 gives 2). With removal it is false: BeamformerBase divides by 1 - 1/M, BeamformerTimeSq does not, so that a single source comes out lower by the factor 1 - 1/M at every sample. Delays of whole samples, rectangular window, even block size, record length times overlap a multiple of the block size, constant speed of sound."
  },
  {
   "property": "C132",
   "status": "partial",
   "theorems": [
    "C132_components",
    "C132_orth",
    "C132_peak",
    "C132_level_refuted",
    "C132_place_refuted"
   ],
   "note": "BeamformerEig: holds for every steering type, with and without removal of the diagonal; the strength is raised by noise power / sum of (r0/r)^2. BeamformerOrth: all power is given at the point of the source if the map of this source alone has its only maximum there, which 'true location' guarantees unless another point has a parallel transfer vector; with the default 'true level' it may be given at another point. The value is the strength times the mean of (r0/r)^2 over the microphones, plus noise power / M, not the strength at the reference. Both refutations with one source and no noise. Exact arithmetic; eigenvectors as specified for numpy.linalg.eigh."
  },
  {
   "property": "C133",
   "status": "partial",
   "theorems": [
    "C133_undisturbed",
    "C133_loudest",
    "C133_inverse_refuted"
   ],
   "note": "Holds for 'true level' and 'true location' without removal of the diagonal: BeamformerBase and BeamformerFunctional with every positive exponent then give the same value, p + noise / A or (p A + noise) / M with A the sum of (r0/r)^2, BeamformerCapon this value times (A/M)^2 or A/M, the factor of C73. For 'true location' the maximum of the map of BeamformerBase is at the source with the largest sum of squares at the array. False for 'inverse' (two sources of equal strength with orthogonal vectors: 25/16 instead of 1), whose steering vector is not parallel to the transfer vector. Exact arithmetic."
  },
  {
   "property": "C134",
   "status": "partial",
   "theorems": [
    "C134_removed",
    "C134_lowered",
    "C134_removed_refuted"
   ],
   "note": "The noise has no influence (uniform here, any diagonal by C32). The second half is false: the diagonal also contains the powers of all sources, so that with orthogonal transfer vectors every further source lowers the map at the others, in closed form, and the value is zero exactly if p A^2 is at most the weighted sum over all sources (A is the sum of (r0/r)^2); witness with two sources of equal strength, 16/25 alone and 0 together. Without removal they do not disturb each other (C133). Default r_diag_norm = 0; exact arithmetic."
  },
  {
   "property": "C135",
   "status": "partial",
   "theorems": [
    "C135_found",
    "C135_level_refuted",
    "C135_near_refuted"
   ],
   "note": "Holds for 'true location', r_diag = False and no noise, if no other grid point has a transfer vector that is a combination of those of the sources and damp times the relative power A/M of each source is at most one: no other point ever gets anything, the strengths are never exceeded and the sum of A/M times what is missing is at most (1 - damp delta / K)^n_iter times its initial value, delta the smallest A/M. False for 'true level' (the default), where the maximum may lie at another point, and for microphones closer to the source than the reference, because the amplitude is not divided by the maximum of the point spread function: the first pass overshoots and the loop stops (2.4 times the strength for r0/r = 2). Exact arithmetic."
  },
  {
   "property": "C136",
   "status": "partial",
   "theorems": [
    "C136_base",
    "C136_functional",
    "C136_capon",
    "C136_removed_refuted",
    "C136_exponent_refuted",
    "C136_sum_refuted"
   ],
   "note": "Holds with the full matrix: BeamformerBase gives exactly the sum, BeamformerFunctional with gamma >= 1 and BeamformerCapon at least the sum (Capon, if one of the matrices has no inverse, at least the value of the other), for every steering type. False with r_diag = True, the default: a second source with orthogonal transfer vector takes the first one from 16/25 to 0. False for gamma < 1, which the trait allows (gamma = 1/2, two sources, two microphones: the map with both is lower than that of one). The sum is exceeded: noise of the two microphones gives 4/125 and 64/125 alone, 4/5 together (gamma = 2). Functional beamforming with powers in real arithmetic; matrix inverse and eigenvalue decomposition by their specification."
  },
  {
   "property": "C137",
   "status": "partial",
   "theorems": [
    "C137_entries",
    "C137_base",
    "C137_steer",
    "C137_functional",
    "C137_capon",
    "C137_capon_refuted",
    "C137_eig_refuted"
   ],
   "note": "An error of at most delta in every entry is an error of at most eps = M delta of the power in any direction. BeamformerBase changes by at most eps times the sum of squares of the steering vector (1/M for 'classic' and 'true location'), with removed diagonal at most 2 loss times as much; for BeamformerFunctional with gamma >= 1 the same bound holds for the gamma-th roots of the values; BeamformerCapon changes relatively by at most eps / (smallest power in any direction). False for BeamformerCapon without that smallest power: for a fixed array of two microphones no constant bounds the change by eps. False for BeamformerEig with n = -1: an arbitrarily small error may exchange the eigenvectors and change the value from 4/25 to 16/25 of the power. Real arithmetic; rounding is C125."
  },
  {
   "property": "C138",
   "status": "partial",
   "theorems": [
    "C138_base",
    "C138_removed",
    "C138_functional",
    "C138_capon",
    "C138_removed_refuted",
    "C138_functional_refuted",
    "C138_capon_refuted"
   ],
   "note": "True for BeamformerBase with the full matrix: the map of the whole is exactly the mean of the maps of the parts. With removed diagonal it is at most the mean, since negative values are set to zero; for BeamformerFunctional with gamma >= 1 and for BeamformerCapon with invertible matrices it is at least the mean. False as equality in these three cases, with witnesses of two microphones and blocks of 128 samples. The number of blocks of the whole is taken as the sum of those of the parts; PowerSpectra.num_blocks has this property without overlap for parts of whole blocks, with overlap the parts lack the blocks across their borders. The eigenvalue decompositions and inverses are any with the properties of eigh and inv. Real arithmetic."
  }
 ]
}