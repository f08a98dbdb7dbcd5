{
 "claims": [
  {
   "property": "C01",
   "status": "proved",
   "theorems": [
    "C01_slice_pixels",
    "C01_slice_unit_pixels"
   ],
   "note": "getitem on an affine 2-d map; block-centre convention for |step|>1, exact pixel for +-1"
  },
  {
   "property": "C02",
   "status": "partial",
   "theorems": [
    "C02_slice_compose_partial",
    "C02_slice_compose_refuted"
   ],
   "note": "law proved when the second step is positive or the first is +-1; the unguarded law is refuted (m[::2][::-1] vs m[::-2])"
  },
  {
   "property": "C03",
   "status": "partial",
   "theorems": [
    "C03_expand_slice_partial",
    "C03_expand_slice_refuted",
    "C03_slice_shape_partial",
    "C03_slice_shape_refuted"
   ],
   "note": "proved for in-range slices; refuted for out-of-range negative starts, negative steps starting past the end, and empty selections (negative shape)"
  },
  {
   "property": "C04",
   "status": "partial",
   "theorems": [
    "C04_downgrade_geometry",
    "C04_downgrade_partial",
    "C04_downgrade_upgrade_partial",
    "C04_total_partial",
    "C04_unguarded_refuted",
    "C04_upgrade_partial"
   ],
   "note": "2-d maps with exact values, op=mean, any offsets and inclusive flag, default oshape; guards: non-empty axes, offset 0 on axes with factor 1, at least one whole block when inclusive=False; refuted outside them"
  },
  {
   "property": "C05",
   "status": "partial",
   "theorems": [
    "C05_auto_period",
    "C05_empty_map_refuted",
    "C05_extract_onto_partial",
    "C05_extract_partial",
    "C05_extract_pixbox_partial",
    "C05_insert_at_partial",
    "C05_roundtrip_partial",
    "C05_stride_refuted"
   ],
   "note": "boxes with step +-1 on non-empty maps, any wrap length that is 0 or at least the map size, any op; also extract by geometry and the auto period; refuted for strides above 1 starting outside the map and for zero-length maps"
  },
  {
   "property": "C06",
   "status": "partial",
   "theorems": [
    "C06_pad",
    "C06_pad_wrap_partial",
    "C06_wrap_wide_refuted",
    "C06_wrap_zero_refuted"
   ],
   "note": "proved for wrap=False; wrap=True proved when the upper pads are positive and no pad exceeds the map; refuted otherwise (-0 slices, fill values copied)"
  },
  {
   "property": "C07",
   "status": "partial",
   "theorems": [
    "C07_all_blank_refuted",
    "C07_autocrop_partial",
    "C07_autocrop_total",
    "C07_border"
   ],
   "note": "value/none/auto modes, any good-size function with good(l)>=l, margin>=0; an all-blank map raises (refuted)"
  },
  {
   "property": "C08",
   "status": "proved",
   "theorems": [
    "C08_padslice"
   ],
   "note": "any integer box with start<=stop"
  },
  {
   "property": "C09",
   "status": "partial",
   "theorems": [
    "C09_fullsky_refuted",
    "C09_padtiles_partial",
    "C09_ranks_partial",
    "C09_same_map_refuted",
    "C09_wide_pad_refuted"
   ],
   "note": "any user function that is pointwise outside the margin, all tiles or shared between any number of ranks; guards: 2*pad<=tile shape, and tiles that do not reach round the sky; refuted for full-sky maps (edge pads wrap and count twice), wider pads, and for padtiles(imap,imap) as in the docstring (result is added to the input)"
  },
  {
   "property": "C10",
   "status": "partial",
   "theorems": [
    "C10_axis_modes_partial",
    "C10_axis_roundtrip",
    "C10_modes_odd_partial",
    "C10_modes_partial",
    "C10_odd_map_refuted",
    "C10_odd_refuted",
    "C10_roundtrip"
   ],
   "note": "index bookkeeping of the spectra (enmap, fft and resample versions) over any coefficient type, op and normalisation; up-then-down identity proved for all sizes; frequencies kept for even common sizes and for all but the largest frequency of an odd size (refuted there: 3->6 moves frequency 1 to -2); the transforms themselves and the sub-pixel phase are not modelled"
  },
  {
   "property": "C11",
   "status": "partial",
   "theorems": [
    "C11_fix_wcs_middle",
    "C11_fix_wcs_moves_partial",
    "C11_fix_wcs_partial",
    "C11_fix_wcs_refuted",
    "C11_recenter_cyl_x",
    "C11_recenter_refuses"
   ],
   "note": "recenter_cyl_x proved; fix_wcs proved when the reference RA is a whole number of turns and refuted otherwise (crval is increased by the middle RA instead of the difference)"
  },
  {
   "property": "C12",
   "status": "partial",
   "theorems": [
    "C12_scale",
    "C12_scale_centre_refuted",
    "C12_scale_compose",
    "C12_scale_inverse"
   ],
   "note": "corner=True and inverse/composition laws proved; the documented meaning of corner=False is refuted"
  },
  {
   "property": "C13",
   "status": "partial",
   "theorems": [
    "C13_adjust_refuted",
    "C13_count",
    "C13_fine_refuted",
    "C13_periodic_crpix_refuted",
    "C13_periodic_partial",
    "C13_pixelization_partial",
    "C13_res",
    "C13_res_close",
    "C13_res_first",
    "C13_res_free",
    "C13_shape_refuted"
   ],
   "note": "all argument combinations of pixelize_1d over exact rationals; refuted: periodic axes finer than the closeness tolerance lose a pixel, adjust=True, pixelization with a shape, and crpix of a periodic axis"
  },
  {
   "property": "C14",
   "status": "partial",
   "theorems": [
    "C14_areas_partial",
    "C14_offsky_refuted"
   ],
   "note": "exact reals, any projection given as a row-to-declination function with edges strictly monotone over the sphere; rows wholly beyond a pole give 0/0 (refuted)"
  },
  {
   "property": "C15",
   "status": "proved",
   "theorems": [
    "C15_inplace",
    "C15_intensity",
    "C15_queb",
    "C15_rotate_pol"
   ],
   "note": "exact reals, any component list and spin; also queb_rotmat inverse for integer spin"
  },
  {
   "property": "C16",
   "status": "proved",
   "theorems": [
    "C16_spin_helper",
    "C16_spin_pre_helper",
    "C16_spin_pre_raised"
   ],
   "note": "every non-empty spin list and n; spin_pre_helper for positive leading dimensions"
  },
  {
   "property": "C17",
   "status": "partial",
   "theorems": [
    "C17_disjoint_partial",
    "C17_flip_index",
    "C17_native_partial",
    "C17_reread_refuted",
    "C17_reread_sign_refuted",
    "C17_sections"
   ],
   "note": "reads that make new arrays proved for every history; reads through the shared hdu.data array proved when native and unflipped, or pairwise disjoint, and refuted otherwise (second read byteswapped or sign-flipped)"
  },
  {
   "property": "C18",
   "status": "proved",
   "theorems": [
    "C18_mask2range"
   ],
   "note": "every mask; also shows that starts and stops pair up"
  },
  {
   "property": "C19",
   "status": "partial",
   "theorems": [
    "C19_range_cut_partial",
    "C19_range_normalize",
    "C19_range_sub_empty_refuted",
    "C19_range_sub_partial",
    "C19_range_sub_refuted",
    "C19_range_union"
   ],
   "note": "union, normalize, cut and sub proved for any tie order of argsort; range_sub refuted for an empty input range inside a and for an empty a (IndexError); guard: ranges of a non-empty, and no empty b-range at the start of another b-range"
  },
  {
   "property": "C20",
   "status": "partial",
   "theorems": [
    "C20_sbox_div",
    "C20_sbox_fix",
    "C20_sbox_flip_partial",
    "C20_sbox_flip_refuted",
    "C20_sbox_intersect",
    "C20_sbox_intersect_wrap_partial",
    "C20_sbox_intersect_wrap_refuted",
    "C20_sbox_mul_partial",
    "C20_sbox_mul_refuted",
    "C20_sbox_size_partial",
    "C20_sbox_size_refuted",
    "C20_sbox_wrap_once_partial",
    "C20_sbox_wrap_partial",
    "C20_sbox_wrap_refuted"
   ],
   "note": "size/fix/flip/intersect/div proved on well-formed boxes; intersect with wrap proved for boxes up to one period and refuted beyond; mul proved for positive-step a and refuted for negative; wrap (any number of axes) proved for step +-1 and refuted for larger steps"
  },
  {
   "property": "C21",
   "status": "partial",
   "theorems": [
    "C21_equal_split",
    "C21_greedy_split_default_refuted",
    "C21_greedy_split_max",
    "C21_greedy_split_partition",
    "C21_greedy_split_simple"
   ],
   "note": "equal_split, greedy_split_simple and greedy_split with summed work and max cost proved total, partitioning and balanced; greedy_split with arbitrary functions proved to partition whenever it returns; greedy_split with its default functions refuted (raises for every n>=2)"
  },
  {
   "property": "C22",
   "status": "partial",
   "theorems": [
    "C22_common_inds",
    "C22_complement_inds_empty_refuted",
    "C22_complement_inds_partial",
    "C22_contains_empty_refuted",
    "C22_contains_partial",
    "C22_find_any",
    "C22_find_any_empty_refuted",
    "C22_find_default_refuted",
    "C22_find_sound",
    "C22_find_total",
    "C22_inverse_order",
    "C22_nearest_ind",
    "C22_nearest_ind_sorted"
   ],
   "note": "find, find_any, nearest_ind, common_inds, inverse_order proved for every argsort result; contains and complement_inds proved for non-empty vals/inds; refuted (raise) for empty vals in contains and find_any, empty python list in complement_inds, and find with default on an empty array"
  },
  {
   "property": "C23",
   "status": "partial",
   "theorems": [
    "C23_fast_rewind",
    "C23_fast_rewind_default_refuted",
    "C23_rewind",
    "C23_unwind",
    "C23_unwind_nan"
   ],
   "note": "rewind and unwind (both modes, with and without nan masking) proved over exact rationals along one axis; fast_rewind proved for [ref,ref+p) and its use as a [0,p) rewind refuted"
  },
  {
   "property": "C24",
   "status": "partial",
   "theorems": [
    "C24_bin_data",
    "C24_bin_data_total",
    "C24_bin_expand",
    "C24_bin_roundtrip",
    "C24_bins2edges_partial",
    "C24_bins2edges_refuted",
    "C24_expbin_diverges_refuted",
    "C24_expbin_partial",
    "C24_expbin_returns_partial",
    "C24_linbin_bsize_partial",
    "C24_linbin_default",
    "C24_linbin_partial",
    "C24_linbin_refuted",
    "C24_tiles_partition"
   ],
   "note": "linbin, bin_data, bin_expand proved along one axis; expbin proved over any integer edge array the float line 2505 could produce and refuted for termination (expbin(5) loops forever); linbin with more bins than points gives empty bins, and bsize overshoots n: refuted; bins2edges refuted"
  },
  {
   "property": "C25",
   "status": "partial",
   "theorems": [
    "C25_blocks_partition",
    "C25_expand",
    "C25_expand_exclusive",
    "C25_mean_expand_exclusive_partial",
    "C25_mean_expand_partial",
    "C25_reduce_exclusive_partial",
    "C25_reduce_expand_partial",
    "C25_reduce_partial",
    "C25_unguarded_refuted"
   ],
   "note": "any element type and op along one axis, inclusive or not; proved for bsize>=2 and 0<=off<=n (and at least one whole block when inclusive=False); refuted for bsize=1 with an offset, offsets past the end, and inclusive=False without a whole block; op='linear' not modelled"
  },
  {
   "property": "C26",
   "status": "partial",
   "theorems": [
    "C26_nditer_partial",
    "C26_zero_axis_refuted"
   ],
   "note": "any shape and set of distinct axes with positive lengths; a zero-length axis is refuted (yields an index tuple)"
  },
  {
   "property": "C27",
   "status": "partial",
   "theorems": [
    "C27_format_partial",
    "C27_format_sign_refuted",
    "C27_sexa_roundtrip"
   ],
   "note": "round trip proved for every rational; sign in the formatted text proved outside (-1,0) and refuted inside"
  },
  {
   "property": "C28",
   "status": "proved",
   "theorems": [
    "C28_conjugate",
    "C28_ends",
    "C28_err",
    "C28_minres",
    "C28_residual",
    "C28_resume"
   ],
   "note": "Residual, termination (without a preconditioner), error bookkeeping, save/load, conjugacy and Minres invariants in exact real arithmetic; a step that would divide by zero has no successor state. The preconditioner is assumed to return a new vector (M returning its argument aliases p and r in the code)."
  },
  {
   "property": "C29",
   "status": "partial",
   "theorems": [
    "C29_cache_get_partial",
    "C29_empty_cache_refuted"
   ],
   "note": "every history proved for a cache that starts non-empty; refuted for an empty dict, which is never filled"
  },
  {
   "property": "C30",
   "status": "partial",
   "theorems": [
    "C30_groups",
    "C30_groups_exact",
    "C30_groups_fast",
    "C30_label_chain_refuted",
    "C30_label_close_partial",
    "C30_label_multi_partial",
    "C30_label_multi_refuted",
    "C30_label_multi_sound",
    "C30_label_refuted",
    "C30_label_unique"
   ],
   "note": "find_equal_groups (numeric rows, any tolerance and any sorting order), find_equal_groups_fast and exact label_unique are proved in full. With tolerances label_unique's labels need not be contiguous (C30_label_refuted). label_multi gives equal tuples equal labels, but distinct tuples can collide (C30_label_multi_refuted); distinctness is proved when no column has more distinct values than the previous one."
  },
  {
   "property": "C31",
   "status": "partial",
   "theorems": [
    "C31_allgatherv",
    "C31_allgatherv_empty_refuted",
    "C31_multimap_negative_refuted",
    "C31_multimap_partial",
    "C31_multimap_set",
    "C31_uncat",
    "C31_uncat_lens"
   ],
   "note": "uncat and allgatherv (first axis, at least one non-empty rank) proved in full; all-empty allgatherv returns each rank's own array (refuted). multimap.maps[i] is proved for non-negative i, reading and writing; negative i is refuted."
  },
  {
   "property": "C32",
   "status": "partial",
   "theorems": [
    "C32_inside_partial",
    "C32_level_outside_refuted",
    "C32_level_refuted"
   ],
   "note": "Proved for every polygon, convex or not, and every point not level with a corner and not on a line through two corners. For points level with a corner the answer can be wrong both ways (refuted)."
  },
  {
   "property": "C33",
   "status": "partial",
   "theorems": [
    "C33_above_partial",
    "C33_below_partial",
    "C33_below_refuted",
    "C33_none_refuted",
    "C33_one_refuted"
   ],
   "note": "'above' proved for factors >= 2; 'below' proved sound, its maximality refuted (10,[2,3] gives 8); a factor 1 refuted; n=1 below gives None"
  },
  {
   "property": "C34",
   "status": "partial",
   "theorems": [
    "C34_flatten",
    "C34_moveaxes",
    "C34_moveaxes_back",
    "C34_postflat",
    "C34_postflat_negative_refuted",
    "C34_preflat",
    "C34_preflat_negative_refuted",
    "C34_roundtrip"
   ],
   "note": "moveaxes, partial_flatten and partial_expand proved for every shape, list of distinct axes (negative ones too) and position, as long as the kept axes are not of length zero (the code raises then) and at least one axis is kept; preflat/postflat proved for n>=0 and refuted for the documented negative n"
  },
  {
   "property": "C35",
   "status": "proved",
   "theorems": [
    "C35_counts",
    "C35_index",
    "C35_partition"
   ],
   "note": "every map and tile shape, including partial edge tiles"
  },
  {
   "property": "C36",
   "status": "proved",
   "theorems": [
    "C36_from_tiles",
    "C36_roundtrip",
    "C36_set",
    "C36_set_inactive",
    "C36_to_enmap",
    "C36_views"
   ],
   "note": "every tiled map (any list of active tiles, any order): views, item assignment, from_tiles, to_enmap and the full round trip"
  },
  {
   "property": "C37",
   "status": "partial",
   "theorems": [
    "C37_empty_refuted",
    "C37_lengths_refuted",
    "C37_with_tiles_partial"
   ],
   "note": "with_tiles, union and strict, proved when numpy compares the two active lists as intended; a map without active tiles asked for one tile is returned unchanged (refuted) and numpy 1.25 or later raises on lists of different lengths (refuted)"
  },
  {
   "property": "C38",
   "status": "partial",
   "theorems": [
    "C38_binop",
    "C38_full_partial",
    "C38_inplace",
    "C38_inplace_raises",
    "C38_insert",
    "C38_mul_refuted"
   ],
   "note": "tile-level result proved for every op; equal to full-map arithmetic when op x 0 = x (add, subtract); refuted for multiplication, where tiles active only in the first map keep their value. In-place forms and insert proved. wcs equality is not modelled (the code's check ignores it as well)"
  },
  {
   "property": "C39",
   "status": "partial",
   "theorems": [
    "C39_auto_partial",
    "C39_order_refuted",
    "C39_redistribute_partial",
    "C39_reduce_partial",
    "C39_sorted"
   ],
   "note": "any number of ranks and any addition; guard: tiles common to a sender and a receiver are listed in the same order (e.g. all lists sorted); the automatic assignment gives every active tile to exactly one rank. Refuted when orders differ: tiles are swapped"
  },
  {
   "property": "C40",
   "status": "partial",
   "theorems": [
    "C40_disjoint",
    "C40_reuse",
    "C40_size",
    "C40_steady_partial",
    "C40_steady_refuted"
   ],
   "note": "disjointness, alignment, containment and reuse proved for every history of alloc/reset/free over any honest allocator; steady state proved for repetitions of one non-empty cycle from a fresh pool, refuted from other states (a cycle that outgrows the capacity allocates for ever)"
  },
  {
   "property": "C41",
   "status": "partial",
   "theorems": [
    "C41_lmax_recovered",
    "C41_rect_lmax_recovered",
    "C41_rectangular",
    "C41_stride_refuted",
    "C41_triangular"
   ],
   "note": "injectivity, range and exact cover proved for triangular (any mmax<=lmax, any stride) and rectangular layouts; lmax recovered from nalm for stride 1 (counts that fit no lmax are refused); refuted for strided layouts, where alm_info(nalm=...) fails on its own element count"
  },
  {
   "property": "C42",
   "status": "partial",
   "theorems": [
    "C42_any_schedule",
    "C42_cache_partial",
    "C42_cache_refuted",
    "C42_no_fault"
   ],
   "note": "formula proved for every assignment of m to threads and every interleaving of the individual reads and writes, any stride-1 layout, exact arithmetic; the address cache of the stack version proved transparent when equal addresses mean equal contents and refuted for views with different strides of one buffer"
  },
  {
   "property": "C43",
   "status": "partial",
   "theorems": [
    "C43_stride_refuted",
    "C43_transpose"
   ],
   "note": "any layout with stride 1 and any stack of alms, element type arbitrary; refuted for stride 2 (the C code ignores the stride)"
  },
  {
   "property": "C44",
   "status": "partial",
   "theorems": [
    "C44_lmatmul_double",
    "C44_lmatmul_single_partial",
    "C44_lmul",
    "C44_single_refuted",
    "C44_stride_refuted"
   ],
   "note": "lmul and double-precision lmatmul proved for every filter length, row aliasing (in place) and iteration order; single-precision lmatmul proved for filters no longer than lmax and refuted beyond (writes outside the array); refuted for strided layouts; broadcasting of leading dimensions not modelled"
  },
  {
   "property": "C45",
   "status": "proved",
   "theorems": [
    "C45_transfer",
    "C45_transfer_c"
   ],
   "note": "any pair of layouts (any strides) with mmax<=lmax, any op; also the C copy loops in any iteration order; one member of the stack at a time"
  },
  {
   "property": "C46",
   "status": "partial",
   "theorems": [
    "C46_agree_partial",
    "C46_components_refuted"
   ],
   "note": "proved for one component, any generator, blocking and pair of lmax; refuted for two components (the second component's draws start at an lmax-dependent offset); multi_pow is an input"
  },
  {
   "property": "C47",
   "status": "partial",
   "theorems": [
    "C47_neighbours_partial",
    "C47_overflow_refuted",
    "C47_ravel_unravel_partial",
    "C47_ring_info",
    "C47_ring_info_subset",
    "C47_rings_tile_partial",
    "C47_unravel_ravel_partial"
   ],
   "note": "rings tile, ravel/unravel and the exact edge neighbours (with symmetry) proved for every nside up to 32767 and any square root off by at most one beyond 2^50; beyond that ncap overflows a C int (refuted); the python ring table proved for every nside and choice of rings"
  },
  {
   "property": "C48",
   "status": "partial",
   "theorems": [
    "C48_every_row_partial",
    "C48_last_row_refuted"
   ],
   "note": "proved for every position function, mask and block size unless the block size divides ny-1; in that case (1, 1001, 2001, ... rows with the default block size) proved that the last row is never visited"
  },
  {
   "property": "C49",
   "status": "proved",
   "theorems": [
    "C49_buffer",
    "C49_output_buffer"
   ],
   "note": "pixels, zeros outside, sky positions and exact round trip for every size, flip and non-negative padding, affine wcs"
  },
  {
   "property": "C50",
   "status": "proved",
   "theorems": [
    "C50_alias_counterexample",
    "C50_error",
    "C50_exact_inverse"
   ],
   "note": "any additive groups and additive operators, any number of steps, including the call counts the docstring promises; assumes the operators return new arrays, as those of map2alm do (counterexample given for an operator that returns its argument)"
  },
  {
   "property": "C51",
   "status": "proved",
   "theorems": [
    "C51_bubble",
    "C51_bubble_healpix",
    "C51_heap_healpix",
    "C51_narrow_counterexample",
    "C51_never_below",
    "C51_shared_pixel_counterexample",
    "C51_simple",
    "C51_simple_no_points"
   ],
   "note": "bubble (flat and healpix), heap and simple methods, any distance function, cut-off and points inside the map; also: every connected pixel is reached, and the distance is exact wherever the nearest point's region connects to a pixel of its own. Limits shown by counterexamples: shared start pixels and regions narrower than a pixel. The cellgrid method is not modelled"
  },
  {
   "property": "C52",
   "status": "partial",
   "theorems": [
    "C52_nothing_lost",
    "C52_smallest_partial",
    "C52_smallest_refuted"
   ],
   "note": "removal of exactly the returned entry proved for every history; minimality proved while no pop has left an odd number of entries, refuted in general (the last child is skipped when sifting down)"
  },
  {
   "property": "C53",
   "status": "proved",
   "theorems": [
    "C53_corner_counterexample",
    "C53_edges",
    "C53_edges_healpix",
    "C53_edges_labeled",
    "C53_edges_labeled_healpix"
   ],
   "note": "flat masks and labels of every size from 1x1 (as a set: corners are listed twice), healpix masks and labels once each for every nside up to 32767"
  },
  {
   "property": "C54",
   "status": "partial",
   "theorems": [
    "C54_adjoint",
    "C54_edge_refuted",
    "C54_extreme_partial",
    "C54_painted_partial",
    "C54_schedule"
   ],
   "note": "painting, at most once per pixel, independence of the schedule and adjointness proved for all inputs; coverage of the box proved when it lies in the map, the map is a whole number of cells, or the box is longer than the map, and refuted for a box crossing the edge of a map with a partial last cell"
  },
  {
   "property": "C55",
   "status": "partial",
   "theorems": [
    "C55_direct",
    "C55_table_partial",
    "C55_table_refuted"
   ],
   "note": "without the table: exact; with the table: same or one sample short for normalized non-increasing profiles; equality refuted (one sample short, read before the start of the profile, profile not normalized)"
  },
  {
   "property": "C56",
   "status": "partial",
   "theorems": [
    "C56_equal_partial",
    "C56_equal_refuted",
    "C56_general_partial",
    "C56_last_refuted"
   ],
   "note": "all bins but the last (general edges), all bins while distances stay below the number of bins (equal bins); the last general bin is never filled, and distances beyond nbin are dropped in equal mode, both refuted"
  },
  {
   "property": "C57",
   "status": "proved",
   "theorems": [
    "C57_axes_counterexample",
    "C57_combined_counterexample",
    "C57_compress_expand",
    "C57_expand_compress",
    "C57_order",
    "C57_stable_prefix"
   ],
   "note": "every size, scheme and number of further axes, for the default axes; counterexamples given for combined=True (off-diagonal elements come back doubled) and for axes=[1,2] (wrong axes indexed)"
  },
  {
   "property": "C58",
   "status": "proved",
   "theorems": [
    "C58_levels",
    "C58_reconstruct"
   ],
   "note": "every shape, number of levels and offset choice, with exact pixel arithmetic; also the zero mean of the details"
  },
  {
   "property": "C59",
   "status": "partial",
   "theorems": [
    "C59_buttertrim",
    "C59_butterworth",
    "C59_compact",
    "C59_cosine_partial",
    "C59_cosine_refuted",
    "C59_digital",
    "C59_levels"
   ],
   "note": "Butterworth, ButterTrim and DigitalButterTrim proved in full; CosineNeedlet only below its lmax, and refuted at lmax, where all needlets vanish"
  },
  {
   "property": "C60",
   "status": "proved",
   "theorems": [
    "C60_compose",
    "C60_inverse"
   ],
   "note": "all |beta|<1 and |z|<=1, exact reals; also the composition law for two boosts"
  },
  {
   "property": "C61",
   "status": "partial",
   "theorems": [
    "C61_doubled_partial",
    "C61_pole_refuted"
   ],
   "note": "the contents of the doubled map are proved for every map; the documented boundary condition is refuted: the second copy is mirrored in x instead of y"
  },
  {
   "property": "C62",
   "status": "proved",
   "theorems": [
    "C62_counterexample",
    "C62_rotation"
   ],
   "note": "every size, every order of the parallel loop, offsets up to one turn; counterexample beyond one turn"
  },
  {
   "property": "C63",
   "status": "partial",
   "theorems": [
    "C63_contours_partial",
    "C63_edge_refuted"
   ],
   "note": "every pixel with both a right and a lower neighbour, including which level is reported and nan pixels; refuted on the last row and column, which are never marked"
  },
  {
   "property": "C64",
   "status": "proved",
   "theorems": [
    "C64_unmask",
    "C64_unmask_select"
   ],
   "note": "last axis, any element type"
  },
  {
   "property": "C65",
   "status": "proved",
   "theorems": [
    "C65_listsplit"
   ],
   "note": "integer elements"
  },
  {
   "property": "C66",
   "status": "proved",
   "theorems": [
    "C66_epoch",
    "C66_time_scales"
   ],
   "note": "exact arithmetic; float rounding not modelled"
  },
  {
   "property": "C67",
   "status": "partial",
   "theorems": [
    "C67_cumsplit",
    "C67_repeat_filler_partial",
    "C67_repeat_filler_zero_refuted"
   ],
   "note": "repeat_filler proved for n>0 and refuted (raises) for n=0; cumsplit proved for non-negative sizes"
  },
  {
   "property": "C68",
   "status": "partial",
   "theorems": [
    "C68_maps_partial",
    "C68_negative_refuted"
   ],
   "note": "proved for indices 0..n-1; negative indices refuted: they return the pixels of the following map, or fail"
  },
  {
   "property": "C69",
   "status": "partial",
   "theorems": [
    "C69_T0_refuted",
    "C69_inverse_partial",
    "C69_plain",
    "C69_planck",
    "C69_rotate"
   ],
   "note": "Planck functions, plain modulation and rotation in full; the round trip between T and linearized units when T0 is utils.T_cmb, refuted for any other T0 (utils.T_cmb is subtracted instead of T0)"
  },
  {
   "property": "C70",
   "status": "partial",
   "theorems": [
    "C70_range_refuted",
    "C70_rewind_partial"
   ],
   "note": "whole periods and the one-period range [period/2, 3 period/2) proved; the stated range 0:period refuted"
  },
  {
   "property": "C71",
   "status": "partial",
   "theorems": [
    "C71_cap",
    "C71_corners",
    "C71_edges_partial",
    "C71_edges_refuted",
    "C71_exclusive_refuted",
    "C71_inclusive_partial",
    "C71_inclusive_refuted",
    "C71_submap",
    "C71_touch",
    "C71_touch_noflip"
   ],
   "note": "touching, capping and submap's pixels proved for both directions (round/floor/ceil); edge-aligned boxes and inclusive/exclusive proved for boxes running with the pixel index, refuted for reversed ones (off by one pixel); exclusive refuted on boxes within a pixel (negative shape)"
  },
  {
   "property": "C72",
   "status": "partial",
   "theorems": [
    "C72_band_all_refuted",
    "C72_band_partial",
    "C72_band_refuted",
    "C72_fullsky",
    "C72_res",
    "C72_res_refused"
   ],
   "note": "fullsky_geometry in full; band_geometry: which rows are kept, to half a pixel; refuted: a symmetric cut gives asymmetric rows, and the whole sky is refused or loses its last row"
  },
  {
   "property": "C73",
   "status": "partial",
   "theorems": [
    "C73_centre",
    "C73_fit",
    "C73_radius",
    "C73_shape",
    "C73_single_refuted"
   ],
   "note": "every case with at least two pixels per axis; the projection of the radius is a parameter; a one-pixel shape with a radius divides by zero"
  },
  {
   "property": "C74",
   "status": "partial",
   "theorems": [
    "C74_map_union",
    "C74_overlap_partial",
    "C74_overlap_refuted",
    "C74_union"
   ],
   "note": "union_geometry and map_union in full; overlap without wrapping; with wrapping it can contain pixels that only one of the geometries has, refuted"
  },
  {
   "property": "C75",
   "status": "partial",
   "theorems": [
    "C75_deriv_bounds_refuted",
    "C75_deriv_refuted",
    "C75_interpol",
    "C75_layout_refuted",
    "C75_map_coordinates_partial",
    "C75_reflect_refuted",
    "C75_short_axis_refuted",
    "C75_spline_filter"
   ],
   "note": "spline_filter and interpolation proved for every order, schedule and shape with at least 2 samples per filtered axis; refuted: border=reflect fails, one-sample axes, arrays that are not C-contiguous are not filtered in place, and deriv=True with trans=True is not a transpose (and reads past the end when there are fewer leading elements than axes)"
  },
  {
   "property": "C76",
   "status": "partial",
   "theorems": [
    "C76_cardinal",
    "C76_nearest_pixel",
    "C76_nearest_refuted",
    "C76_spline_partial",
    "C76_zero_edge_refuted"
   ],
   "note": "conv, lanczos and spline order 0-1 for all borders but zero; spline order 2-5 at every pixel of cyclic and mirror arrays short enough for the exact edge sums, and at pixels away from the edges for every border and length; the edge pixels of arrays long enough that the code truncates its edge sums at 1e-15 are not covered; refuted: zero border at edge pixels, nearest border at edge pixels"
  },
  {
   "property": "C77",
   "status": "partial",
   "theorems": [
    "C77_edges",
    "C77_edges_exist",
    "C77_zero_refuted"
   ],
   "note": "nearest, cyclic and mirror in full, and zero while the kernel lies inside the array; refuted for zero: the sum ends at the first cell outside"
  },
  {
   "property": "C78",
   "status": "partial",
   "theorems": [
    "C78_constant",
    "C78_conv2_refuted",
    "C78_gradient",
    "C78_spline_constant_partial"
   ],
   "note": "constants for all borders but zero and gradients for conv 1 and 3 and spline 1-5; constants through the prefilter for nearest borders of any length and cyclic and mirror axes short enough for the exact edge sums; refuted: conv order 2 is accepted and gives zero"
  },
  {
   "property": "C79",
   "status": "partial",
   "theorems": [
    "C79_cubic_refuted",
    "C79_derivative_partial",
    "C79_pixel_refuted",
    "C79_quintic_refuted"
   ],
   "note": "conv 1 and 3 and spline 1, 2 and 4 at every position between the kernel's nodes; refuted: spline 3 (the default) has wrong weights, spline 5 has none, and at nodes the terms with weight 0 are dropped"
  },
  {
   "property": "C80",
   "status": "partial",
   "theorems": [
    "C80_adjoint",
    "C80_backward",
    "C80_empty",
    "C80_hermitian",
    "C80_inverse",
    "C80_map_inverse",
    "C80_modes",
    "C80_real",
    "C80_real_length_partial",
    "C80_unitary"
   ],
   "note": "everything but irfft without n, which gives an array one shorter when the length was odd (proved), as numpy's does"
  },
  {
   "property": "C81",
   "status": "partial",
   "theorems": [
    "C81_adjoint_refuted",
    "C81_cheb",
    "C81_cheb2_refuted",
    "C81_cheb2_roundtrip",
    "C81_cheb_eval",
    "C81_inverse",
    "C81_map_partial",
    "C81_map_refuted",
    "C81_names",
    "C81_redft00",
    "C81_too_short",
    "C81_unnormalized"
   ],
   "note": "all eight types and the one-axis Chebyshev transforms in full; refuted: enmap.dct/idct return the map times (2ny-2)(2nx-2)/((2ny-1)(2nx-1)), dct_adjoint is not the adjoint, and chebt of an array with two axes scales rows instead of columns (its round trip still holds)"
  },
  {
   "property": "C82",
   "status": "partial",
   "theorems": [
    "C82_add_partial",
    "C82_add_refuted",
    "C82_derivative",
    "C82_integer",
    "C82_map_fractional",
    "C82_map_shift",
    "C82_map_shift_scalar_refuted",
    "C82_trig"
   ],
   "note": "whole shifts, band-limited patterns, derivatives and wcs in full; shifts add up for complex arrays and for real arrays of odd size; refuted: real arrays of even size, and enmap.shift with a single offset moves the wcs along both axes"
  },
  {
   "property": "C83",
   "status": "partial",
   "theorems": [
    "C83_keep",
    "C83_map",
    "C83_map_complex_refuted",
    "C83_map_corner_false_refuted",
    "C83_map_off",
    "C83_odd_refuted",
    "C83_roundtrip_partial",
    "C83_roundtrip_refuted",
    "C83_trig",
    "C83_units"
   ],
   "note": "patterns strictly below the highest frequency, kept samples, units and complex round trips in full; refuted: real round trips lose half of the highest frequency, odd sizes move their highest frequency h to -(h+1) (a single sample [v] becomes [v,-v]), corner=False gives a wcs that does not match the values, and enmap.resample drops imaginary parts"
  },
  {
   "property": "C84",
   "status": "proved",
   "theorems": [
    "C84_complement",
    "C84_complex",
    "C84_compose",
    "C84_mean",
    "C84_power",
    "C84_roll",
    "C84_waves"
   ],
   "note": "real maps; C84_complex states what complex maps give"
  },
  {
   "property": "C85",
   "status": "proved",
   "theorems": [
    "C85_average",
    "C85_bilinear",
    "C85_inverse",
    "C85_mean",
    "C85_nofft",
    "C85_powers"
   ],
   "note": "band-limited means strictly below the highest frequency of the map; scale at or below 1/2, where the window has zeros, is outside the claim"
  },
  {
   "property": "C86",
   "status": "proved",
   "theorems": [
    "C86_adjoint",
    "C86_adjoint_real",
    "C86_back",
    "C86_raises",
    "C86_round_trip",
    "C86_unitary",
    "C86_waves"
   ],
   "note": "without normalization the round trips give the map times the number of pixels, which is stated; waves strictly below the highest frequency"
  },
  {
   "property": "C87",
   "status": "partial",
   "theorems": [
    "C87_complex_refuted",
    "C87_factors",
    "C87_factors_one",
    "C87_fft_partial",
    "C87_keep_partial",
    "C87_looks_done_refuted",
    "C87_same",
    "C87_trig_partial"
   ],
   "note": "arrays with two axes; refuted: lengths that equal those of the last axes make resample_fft return its input even if other axes were named (axes=[0] with the length of axis 1), and complex arrays resampled along the last axis only lose their imaginary part"
  },
  {
   "property": "C88",
   "status": "proved",
   "theorems": [
    "C88_bin",
    "C88_bin_refuted",
    "C88_down",
    "C88_down_total",
    "C88_up",
    "C88_up_down",
    "C88_up_refuted"
   ],
   "note": "arrays with two axes; outside the claim, and stated as theorems: upsample_bin with two steps and no axes uses them in the wrong order, and resample_bin with other factors rounds them (3/4 does nothing, 2/3 halves)"
  },
  {
   "property": "C89",
   "status": "proved",
   "theorems": [
    "C89_direction",
    "C89_map_near",
    "C89_pix_sky_pix",
    "C89_posmap",
    "C89_sky_pix_sky",
    "C89_turns",
    "C89_window"
   ],
   "note": "separable geometries with rows between the poles; degrees; points less than half a turn from the middle of the map, which all the map's pixels are (C89_map_near)"
  },
  {
   "property": "C90",
   "status": "partial",
   "theorems": [
    "C90_centre",
    "C90_contains_partial",
    "C90_contains_refuted",
    "C90_floor_partial",
    "C90_round_partial",
    "C90_round_refuted"
   ],
   "note": "true of positions between the centres of the first pixels and half a pixel beyond the centres of the last; refuted: contains rejects the first half of the first pixels and accepts half a pixel beyond the last ones, and on maps all the way around the sky positions in the first half of the first column get a column beyond the last, with and without corner=True"
  },
  {
   "property": "C91",
   "status": "proved",
   "theorems": [
    "C91_skybox",
    "C91_skybox_plain"
   ],
   "note": "separable geometries; npoint=10, the default; without include_direction"
  },
  {
   "property": "C92",
   "status": "partial",
   "theorems": [
    "C92_pixbox_partial",
    "C92_plain",
    "C92_wide_refuted"
   ],
   "note": "boxes less than half a turn across, or any box with a plain wcs; refuted: the corners are unwound as if they were neighbours, so a box 200 degrees across comes out as 160 the other way"
  },
  {
   "property": "C93",
   "status": "proved",
   "theorems": [
    "C93_l_pix_l",
    "C93_modes",
    "C93_pix_l_pix"
   ],
   "note": "one axis at a time; rational pixel sizes (the factor 2 pi is part of the size)"
  },
  {
   "property": "C94",
   "status": "partial",
   "theorems": [
    "C94_compatible_partial",
    "C94_same",
    "C94_shape_refuted"
   ],
   "note": "border=\"constant\"; refuted: with the map's own wcs and another shape the map comes back in its old shape, since the shape asked for is compared with itself"
  },
  {
   "property": "C95",
   "status": "proved",
   "theorems": [
    "C95_ang_rect_ang",
    "C95_angdist",
    "C95_metric",
    "C95_rect",
    "C95_rect_ang_rect",
    "C95_return_r_refuted",
    "C95_vec",
    "C95_vec_ang"
   ],
   "note": "outside the claim, and stated as a theorem: return_r=True gives the length of the projection on the xy plane instead of the vector's"
  },
  {
   "property": "C96",
   "status": "proved",
   "theorems": [
    "C96_distance",
    "C96_euler",
    "C96_inverse",
    "C96_rotmatrix",
    "C96_site"
   ],
   "note": "the kind argument is any sequence of three axes; one direction at a time"
  },
  {
   "property": "C97",
   "status": "partial",
   "theorems": [
    "C97_bore",
    "C97_center",
    "C97_center_kept",
    "C97_distance",
    "C97_inverse_partial",
    "C97_restore_refuted"
   ],
   "note": "refuted: with a centre of four arrays and restore=True, recenter and decenter add to the caller's centre in place, so decenter with the same centre does not undo recenter"
  },
  {
   "property": "C98",
   "status": "proved",
   "theorems": [
    "C98_back",
    "C98_round_trip",
    "C98_route"
   ],
   "note": "the conversions to and from celestial coordinates are parameters, assumed to undo each other; strings that name systems are not parsed"
  },
  {
   "property": "C99",
   "status": "proved",
   "theorems": [
    "C99_copy",
    "C99_delete_dict",
    "C99_delete_missing",
    "C99_history",
    "C99_independent",
    "C99_own_names"
   ],
   "note": "outside the claim, and stated as theorems: a name like keys or __x can be stored but its attribute is another thing, and del b[\"_dict\"] empties the bunch for good"
  },
  {
   "property": "C100",
   "status": "proved",
   "theorems": [
    "C100_empty_group",
    "C100_groups_replaced",
    "C100_round_trip",
    "C100_slash_names",
    "C100_split",
    "C100_split_exists",
    "C100_split_none",
    "C100_split_raises",
    "C100_split_subgroup",
    "C100_writes"
   ],
   "note": "values are one kind of dataset; h5py is modelled as a tree of groups; outside the claim, and stated as theorems: a name with a slash comes back as nested bunches, and writing one group of a file removes its other groups"
  },
  {
   "property": "C101",
   "status": "proved",
   "theorems": [
    "C101_concatenate",
    "C101_defined"
   ],
   "note": "scalars; the conversion to the first value's type cuts off fractions, which is part of the statement"
  },
  {
   "property": "C102",
   "status": "proved",
   "theorems": [
    "C102_adjoint",
    "C102_div",
    "C102_energy",
    "C102_grad",
    "C102_laplace",
    "C102_nyquist",
    "C102_odd",
    "C102_pix",
    "C102_pix_sign",
    "C102_total"
   ],
   "note": "outside the claim, and stated as a theorem: at the Nyquist frequency of an even axis the gradient is lost but the laplacian is not, so div of grad differs from laplace"
  },
  {
   "property": "C103",
   "status": "proved",
   "theorems": [
    "C103_all",
    "C103_closest",
    "C103_first",
    "C103_first_order",
    "C103_mutual",
    "C103_wide"
   ],
   "note": "scipy's tree and numpy's argsort are parameters with their documented behaviour; the order of the second catalogue in mode \"first\" needs a tree that lists neighbours in order; outside the claim, and stated as theorems: radii above half a turn miss objects, and without that order of the tree the first object of the second catalogue is not preferred"
  },
  {
   "property": "C104",
   "status": "proved",
   "theorems": [
    "C104_flat",
    "C104_label_lost",
    "C104_labels",
    "C104_own_label",
    "C104_simple",
    "C104_sphere",
    "C104_transform"
   ],
   "note": "the search for the closest of a list of points is a parameter with its documented behaviour, met by the brute force method; own labels are proved for flat maps and maps at most half a turn wide; outside the claim, and stated as a theorem: with rmax, labelled pixels further than rmax from the edge of their region get label 0"
  },
  {
   "property": "C105",
   "status": "proved",
   "theorems": [
    "C105_apod",
    "C105_apod_monotone",
    "C105_complement",
    "C105_grow",
    "C105_shrink",
    "C105_zero_radius"
   ],
   "note": "the same parameter; outside the claim, and stated as a theorem: a radius of 0 means no limit to the C code, so that growing by 0 empties the mask and shrinking by 0 fills it"
  },
  {
   "property": "C106",
   "status": "proved",
   "theorems": [
    "C106_constant",
    "C106_crossfade",
    "C106_interior",
    "C106_offset",
    "C106_raises",
    "C106_seam",
    "C106_taper",
    "C106_unknown_fill",
    "C106_zero"
   ],
   "note": "np.median is a parameter; outside the claim, and stated as theorems: an unknown fill does nothing instead of raising, and with crossfade and a width of two or more the first pixel is mixed with a pixel away from the seam, not with its neighbour across it"
  },
  {
   "property": "C107",
   "status": "partial",
   "theorems": [
    "C107_crossing_refuted",
    "C107_no_input",
    "C107_redistribute_partial",
    "C107_single_partial"
   ],
   "note": "proved if no two input boxes of a task and two output boxes of a task overlap crosswise, the exact condition under which both sides list the overlaps in the same order, and so always if each task has one input box or each has one output box; C107_crossing_refuted shows that otherwise data end up in the wrong place, since the sender lists its overlaps by output box first and the receiver by input box first; two-dimensional boxes without wrapping; also stated: a task without input boxes raises"
  },
  {
   "property": "C108",
   "status": "proved",
   "theorems": [
    "C108_bin_radius",
    "C108_bin_values",
    "C108_empty_bins",
    "C108_lbin",
    "C108_linear",
    "C108_outermost",
    "C108_raises",
    "C108_rbin",
    "C108_total"
   ],
   "note": "one component; the map of distances is a parameter; outside the claim, and stated as a theorem: the ring the furthest pixel lies in is left out although it has pixels"
  },
  {
   "property": "C109",
   "status": "proved",
   "theorems": [
    "C109_affine",
    "C109_empty",
    "C109_median",
    "C109_monotone",
    "C109_order",
    "C109_quantile",
    "C109_scale",
    "C109_within"
   ],
   "note": "one axis; np.argsort is a parameter; outside the claim, and stated as theorems: equal values with different weights give a result that depends on the order the sort puts them in, a value without weight can still change the result, without any weight every quantile above 0 is the largest value, and an empty list raises"
  },
  {
   "property": "C110",
   "status": "partial",
   "theorems": [
    "C110_alm2map_partial",
    "C110_masked",
    "C110_projection_refuted"
   ],
   "note": "proved for plate carree maps with the automatic choice and method 2d, for every cylindrical map with method cyl, and for every projection with the general method; ducc is modelled by its documentation; the general method does not work for 1, 1001, 2001, ... rows (C48) or for maps of two axes with pixels off the sky (C110_masked), and C110_projection_refuted shows that a cylindrical equal area map of the whole sky is taken for one of ducc's grids and filled with the values at other declinations"
  },
  {
   "property": "C111",
   "status": "partial",
   "theorems": [
    "C111_adjoint_partial",
    "C111_derivatives",
    "C111_derivatives_refuted"
   ],
   "note": "proved for transforms without derivatives; with derivatives the sign of the declination component is changed in the map after the adjoint has been taken, so that C111_derivatives_refuted shows the adjoint of a map of declination derivatives to have the wrong sign; ducc is modelled by its documentation"
  },
  {
   "property": "C112",
   "status": "partial",
   "theorems": [
    "C112_area_partial",
    "C112_area_refuted",
    "C112_dh_refuted",
    "C112_general",
    "C112_grid_partial",
    "C112_quad_weights_partial",
    "C112_quad_weights_refuted",
    "C112_round_trip",
    "C112_weights"
   ],
   "note": "without derivatives and iterations; proved for given weights, on the grids other than DH, off the grids for maps whose declination increases with the row, for the general method, and for the round trip; C112_area_refuted: for declinations that decrease with the row the areas are those of the rows in the opposite order (the test is of a list of two flags, which is always true); C112_quad_weights_refuted: quad_weights given to map2alm gives row y the weight of row ny-1-y for every orientation; C112_dh_refuted: a map with a row on the north pole and the south pole one past its end raises"
  },
  {
   "property": "C113",
   "status": "partial",
   "theorems": [
    "C113_buttertrim",
    "C113_coefficients",
    "C113_displacement",
    "C113_exact",
    "C113_multipoles_partial",
    "C113_multipoles_refuted",
    "C113_power",
    "C113_round_trip_partial",
    "C113_round_trip_refuted"
   ],
   "note": "the coefficients are proved for scales of all sizes; the way back is proved if every scale after the first has the size of the map, and with filters prepared from the default basis if all have; C113_displacement and C113_round_trip_refuted: adding a smaller scale moves everything added before it, so that two smaller scales do not give the map back; C113_multipoles_refuted: get_ls of a smaller scale multiplies the multipoles by a cosine that can be negative; C113_power is what the norms are for; one component, without fl and scales; the basis is the one of C59"
  },
  {
   "property": "C114",
   "status": "proved",
   "theorems": [
    "C114_adjoint",
    "C114_complex_ignored",
    "C114_exact",
    "C114_grid",
    "C114_interpolator",
    "C114_inverse_adjoint",
    "C114_least_squares",
    "C114_nufft",
    "C114_nufft_ends",
    "C114_nufft_zero",
    "C114_periodic",
    "C114_samples",
    "C114_shift",
    "C114_u2nu"
   ],
   "note": "one field with two transformed axes; ducc0's transforms are modelled by the sums they approximate, without the error epsilon allows them; values given to nu2u and iu2nu are lists of complex numbers; findings outside the claim: C114_nufft_zero (samples that are zero give nan) and C114_complex_ignored (inufft_adjoint drops its argument complex)"
  },
  {
   "property": "C115",
   "status": "proved",
   "theorems": [
    "C115_b2",
    "C115_constcov_best",
    "C115_constcov_flux",
    "C115_constcov_variance",
    "C115_dual_best",
    "C115_dual_flux",
    "C115_lowcorr_high_acc",
    "C115_lowcorr_kappa",
    "C115_lowcorr_uniform",
    "C115_lowcorr_white",
    "C115_nmat_constcorr",
    "C115_nmat_constcov",
    "C115_rmul",
    "C115_rpow",
    "C115_smoothivar",
    "C115_source",
    "C115_white_best",
    "C115_white_flux",
    "C115_white_variance"
   ],
   "note": "one component of spin 0 and flat transforms; NmatConstcov for apodization 1 on the map, NmatConstcorr for one map, which is proved to agree with the function; NmatWavelet uses a module it does not import and is not modelled"
  },
  {
   "property": "C116",
   "status": "partial",
   "theorems": [
    "C116_flat",
    "C116_polarization_partial",
    "C116_polarization_refuted",
    "C116_pole_refuted",
    "C116_pole_wrap",
    "C116_position",
    "C116_position_partial",
    "C116_rotation_adds",
    "C116_rows",
    "C116_utils_pole_wrap",
    "C116_zero"
   ],
   "note": "proved for moves that end no more than a quarter turn of longitude away and not on a pole, which includes all moves shorter than the distance to the pole; C116_pole_refuted: going over the pole ends in the wrong place (the change of longitude is taken from its sine); C116_polarization_refuted: the rotation is already that of Q and U, and lens_map_curved doubles it once more, C116_polarization_partial says so for every path and that the rotation itself is right"
  },
  {
   "property": "C117",
   "status": "proved",
   "theorems": [
    "C117_inferred",
    "C117_kappa",
    "C117_round_trip"
   ],
   "note": "one alm with stride 1; the infinite filter value at l = 0, whose products the code sets to zero, is modelled by zero"
  },
  {
   "property": "C118",
   "status": "partial",
   "theorems": [
    "C118_area",
    "C118_axes_refuted",
    "C118_contour",
    "C118_contour_refuted",
    "C118_corners",
    "C118_descending_refuted",
    "C118_overlap",
    "C118_overlap_laws",
    "C118_overlaps",
    "C118_pad",
    "C118_pad_flat_refuted",
    "C118_slice",
    "C118_unwrap",
    "C118_widen_partial",
    "C118_widen_refuted"
   ],
   "note": "proved for two axes that ascend (slices and overlaps), for axes of some width (padding) and for ascending axes or absolute margins (widening); C118_axes_refuted: box_slice reshapes to (2,2) and so raises unless there are two axes; C118_descending_refuted: a box given from its upper to its lower end overlaps nothing; C118_widen_refuted: a relative margin shrinks such a box; C118_pad_flat_refuted: an axis of no width is not padded; C118_contour_refuted: with two samples per edge box2contour repeats every corner"
  },
  {
   "property": "C119",
   "status": "partial",
   "theorems": [
    "C119_escape_partial",
    "C119_escape_refuted",
    "C119_groups",
    "C119_outer",
    "C119_plain",
    "C119_quotes_refuted",
    "C119_split_outside"
   ],
   "note": "split_by_group and split_outside are proved in full; C119_escape_partial: split_esc for tokens without the escape character, the last not empty unless it is the only one; C119_escape_refuted: an empty last token is dropped, and so is an escaped escape character; C119_quotes_refuted: a group with the same start and end character never ends, since a start character is looked for first"
  },
  {
   "property": "C120",
   "status": "proved",
   "theorems": [
    "C120_complete",
    "C120_nonpositive",
    "C120_primes"
   ],
   "note": "python's unbounded integers; C120_nonpositive: other numbers have no factors"
  },
  {
   "property": "C121",
   "status": "partial",
   "theorems": [
    "C121_all_choices",
    "C121_all_digits",
    "C121_choices",
    "C121_collected_refuted",
    "C121_digits",
    "C121_empty_refuted"
   ],
   "note": "proved for bases of at least one and lists that are not empty; C121_empty_refuted: with an empty list there is nothing to choose, but list_combination_iter raises IndexError; C121_collected_refuted: count_variable_basis yields the same list object each time, so that list(count_variable_basis(...)) is a list of zeros"
  },
  {
   "property": "C122",
   "status": "proved",
   "theorems": [
    "C122_dice",
    "C122_distpow",
    "C122_empty"
   ],
   "note": "exact real numbers; C122_empty: an empty distribution raises unless N is zero"
  },
  {
   "property": "C123",
   "status": "partial",
   "theorems": [
    "C123_box",
    "C123_box_shape",
    "C123_centre",
    "C123_compatible",
    "C123_force_refuted",
    "C123_reference",
    "C123_signed_refuted"
   ],
   "note": "C123_box (corners and resolution, with or without a shape), C123_box_shape, C123_centre, C123_reference and C123_compatible prove all of it for positive resolutions but the last words: C123_force_refuted: with a resolution force=True matches the first corner only, the other is up to half a pixel from the edge of the map. C123_signed_refuted: a resolution with a negative sign next to corners in the same direction gives a map beside the patch. Zenithal projections are not modelled"
  },
  {
   "property": "C124",
   "status": "proved",
   "theorems": [
    "C124_edges",
    "C124_short",
    "C124_uniform",
    "C124_unique"
   ],
   "note": "the sparse solver gives a solution of the normal equations it is given; C124_short: with too few centers for the reference bins (the default is the second bin) there is an IndexError"
  },
  {
   "property": "C125",
   "status": "proved",
   "theorems": [
    "C125_history",
    "C125_names_refuted",
    "C125_total"
   ],
   "note": "values of the header are abstract (distinct keys that can be read in any order); extra is not modelled; C125_names_refuted shows why the names data and wcs are left out: a map written at a/wcs destroys the one at a"
  },
  {
   "property": "C126",
   "status": "proved",
   "theorems": [
    "C126_columns",
    "C126_covers",
    "C126_defined",
    "C126_plain_refuted",
    "C126_pole_refuted",
    "C126_rows"
   ],
   "note": "exact real numbers; skybox2pixbox is modelled by what C91 proves of it, for any number of turns at the first corner; C126_plain_refuted: for plain coordinates every call raises TypeError; C126_pole_refuted: at a pole a distance of zero gives nan"
  },
  {
   "property": "C127",
   "status": "proved",
   "theorems": [
    "C127_distance",
    "C127_zero"
   ],
   "note": "exact real numbers, one point and one polygon (the code treats each separately); where the code has nan (repeated vertices) comparisons are false, as in IEEE arithmetic"
  },
  {
   "property": "C128",
   "status": "proved",
   "theorems": [
    "C128_complete",
    "C128_empty_refuted",
    "C128_mask_refuted",
    "C128_split",
    "C128_too_many"
   ],
   "note": "C128_empty_refuted: an index array without elements compares equal to Ellipsis and is split as if all were selected; C128_mask_refuted: a mask over several axes counts as one entry, so that maps indexed with it keep coordinates they should lose"
  },
  {
   "property": "C129",
   "status": "proved",
   "theorems": [
    "C129_conditional",
    "C129_masked",
    "C129_total"
   ],
   "note": "np.linalg.inv is taken to give an inverse where there is one; exact real numbers; one matrix (the code flattens stacks, see C34). The columns of A follow the ascending order of the known variables, not the order of inds"
  },
  {
   "property": "C130",
   "status": "proved",
   "theorems": [
    "C130_add",
    "C130_group",
    "C130_inverse",
    "C130_power",
    "C130_root",
    "C130_stack",
    "C130_stack_refuted"
   ],
   "note": "np.linalg.eigh is taken to give an orthogonal decomposition; exact real numbers. With two stack axes the claim about stacks is false: the largest eigenvalue is then taken along the second stack axis, so that an invertible matrix beside a larger one becomes zero (C130_stack_refuted)"
  },
  {
   "property": "C131",
   "status": "proved",
   "theorems": [
    "C131_back",
    "C131_compress",
    "C131_expand",
    "C131_expand_only",
    "C131_recovered",
    "C131_round_trip"
   ],
   "note": "np.linalg.eigh is taken to give eigenvalues in ascending order and orthonormal vectors; None stands for inf or nan. combine_beams is not modelled"
  },
  {
   "property": "C132",
   "status": "proved",
   "theorems": [
    "C132_largest",
    "C132_merged",
    "C132_order",
    "C132_vectors"
   ],
   "note": "np.linalg.eigh and np.argsort are taken to do what they promise; exact real numbers; None stands for nan"
  },
  {
   "property": "C133",
   "status": "proved",
   "theorems": [
    "C133_back",
    "C133_bounds",
    "C133_corr",
    "C133_units"
   ],
   "note": "exact real numbers; None stands for inf or nan"
  },
  {
   "property": "C134",
   "status": "partial",
   "theorems": [
    "C134_downgrade",
    "C134_filter_partial",
    "C134_filter_refuted",
    "C134_filter_whole",
    "C134_total"
   ],
   "note": "block_mean_filter (C134_filter_partial) is right for all samples in whole blocks, and everywhere if the blocks fill the array or the array is shorter than a block (C134_filter_whole). A shorter last block is filled up with the samples before it in reverse before the mean is taken, so its samples do not become the mean of the block (C134_filter_refuted). One axis, exact real numbers, whole widths"
  },
  {
   "property": "C135",
   "status": "partial",
   "theorems": [
    "C135_arrays",
    "C135_beyond_refuted",
    "C135_order",
    "C135_shape",
    "C135_total"
   ],
   "note": "C135_shape: the answer is the common shape, in both directions. C135_order: permuting shapes changes nothing. C135_arrays: shapes and elements. C135_total: an answer whenever the shapes have one. Missing: places beyond an array's own axes; there the two functions disagree (C135_beyond_refuted: broadcast_shape answers, broadcast_arrays raises)."
  },
  {
   "property": "C136",
   "status": "proved",
   "theorems": [
    "C136_slopes",
    "C136_symmetry",
    "C136_wave"
   ],
   "note": "C136_wave: equal to asin(sin(2 pi x/period))/(pi/2). C136_symmetry: range, period, half period, oddness. C136_slopes: the straight pieces around every whole and half period. On exact numbers, one element of the array."
  },
  {
   "property": "C137",
   "status": "proved",
   "theorems": [
    "C137_decreasing",
    "C137_derivative",
    "C137_distances",
    "C137_ends",
    "C137_segments"
   ],
   "note": "C137_segments: two segments of the angle 2a at distance 2R cos a. C137_distances: every distance is of that form or beyond 2R with area 0. C137_ends: the values at both ends. C137_decreasing: strictly decreasing. C137_derivative: the derivative is minus the chord."
  },
  {
   "property": "C138",
   "status": "proved",
   "theorems": [
    "C138_each",
    "C138_still",
    "C138_tiles",
    "C138_total",
    "C138_turns"
   ],
   "note": "C138_tiles, C138_turns, C138_each, C138_total, C138_still. scipy's label and maximum_position are modelled as one pass over the mask; its choice among equal extremes is an arbitrary function. Exact numbers."
  },
  {
   "property": "C139",
   "status": "partial",
   "theorems": [
    "C139_back",
    "C139_excess_refuted",
    "C139_first",
    "C139_shape",
    "C139_values"
   ],
   "note": "C139_shape, C139_first, C139_values, C139_back. False for more sizes than the array has axes: they go round modulo the number of axes and the last one wins, without an error (C139_excess_refuted)."
  },
  {
   "property": "C140",
   "status": "proved",
   "theorems": [
    "C140_negative",
    "C140_sums",
    "C140_total"
   ],
   "note": "C140_sums, C140_total. C140_negative: a negative label is not refused but counts from the largest one. One line along the axis, exact numbers."
  },
  {
   "property": "C141",
   "status": "proved",
   "theorems": [
    "C141_back",
    "C141_only",
    "C141_split",
    "C141_transpose",
    "C141_without"
   ],
   "note": "C141_transpose, C141_back, C141_only, C141_without, C141_split."
  },
  {
   "property": "C142",
   "status": "partial",
   "theorems": [
    "C142_equal",
    "C142_limit_partial",
    "C142_limit_refuted",
    "C142_sum"
   ],
   "note": "C142_sum (sum is N, every cell in 1..nmax+1), C142_equal (equal sizes apart from one balanced last cell) hold always. The limit itself is proved when nmax mod 3 is not 2 (C142_limit_partial) and is false otherwise: distribute(10,5) gives cells of 4 and 6 (C142_limit_refuted)."
  },
  {
   "property": "C143",
   "status": "partial",
   "theorems": [
    "C143_any",
    "C143_mul32",
    "C143_positive",
    "C143_pow2",
    "C143_small_refuted"
   ],
   "note": "C143_positive, C143_any, C143_mul32 and C143_pow2 are proved. The last sentence fails for maps of at most 1024 pixels, where mul32 truncates the wanted resolution: 2.7 rounded up with mul32 gives 2 (C143_small_refuted)."
  },
  {
   "property": "C144",
   "status": "partial",
   "theorems": [
    "C144_drivers_partial",
    "C144_drivers_refuted",
    "C144_exact",
    "C144_fortran",
    "C144_line",
    "C144_nan",
    "C144_python"
   ],
   "note": "C144_python, C144_fortran (within half a shade of the line), C144_line (the line is single valued), C144_exact, C144_nan. The drivers differ by at most one, and only where the line is halfway between two shades (C144_drivers_partial); there they do differ, since numpy rounds halves to even and nint away from zero (C144_drivers_refuted)."
  },
  {
   "property": "C145",
   "status": "proved",
   "theorems": [
    "C145_cells",
    "C145_cover",
    "C145_once",
    "C145_reach"
   ],
   "note": "C145_cells, C145_reach, C145_once, C145_cover. With wrapping a source may be listed more than once in a cell, once for each image in reach. The middle axes of the positions and the option unwind are not modelled."
  },
  {
   "property": "C146",
   "status": "proved",
   "theorems": [
    "C146_cellify",
    "C146_roundtrip",
    "C146_uncellify"
   ],
   "note": "C146_cellify, C146_uncellify, C146_roundtrip. Leading axes of the map are independent of each other and not modelled."
  },
  {
   "property": "C147",
   "status": "partial",
   "theorems": [
    "C147_closest",
    "C147_complete",
    "C147_shape_partial",
    "C147_shape_refuted",
    "C147_shared",
    "C147_total"
   ],
   "note": "C147_closest, C147_complete and C147_total hold for every answer the tree may give. The shape is right when there is a match (C147_shape_partial); without any it is (0,) and not (0,2) (C147_shape_refuted). C147_shared: the matching is one way, two sources may be matched with the same one. The tree of scipy is taken as its specification."
  },
  {
   "property": "C148",
   "status": "partial",
   "theorems": [
    "C148_lines",
    "C148_nested",
    "C148_show_refuted",
    "C148_stats_partial",
    "C148_transparent"
   ],
   "note": "C148_stats_partial needs show to be used with the default clock: show does not pass on the clock it is given, so a block shown with another clock records default time (C148_show_refuted). C148_transparent, C148_nested, C148_lines. Times are whole numbers instead of floats."
  },
  {
   "property": "C149",
   "status": "proved",
   "theorems": [
    "C149_error",
    "C149_error_rows",
    "C149_tiles"
   ],
   "note": "C149_tiles, C149_error, C149_error_rows. The coordinate system is reduced to the place of the corner in the common pixelization."
  },
  {
   "property": "C150",
   "status": "proved",
   "theorems": [
    "C150_caller",
    "C150_inverse",
    "C150_sorted",
    "C150_twice"
   ],
   "note": "C150_sorted, C150_inverse, C150_caller; C150_twice shows that the shift is not its own inverse for odd lengths."
  },
  {
   "property": "C151",
   "status": "proved",
   "theorems": [
    "C151_argmax",
    "C151_argmin"
   ],
   "note": "C151_argmax, C151_argmin, for unit \"pix\". With unit \"coord\" the code converts the position with pix2sky, which is the subject of other claims. Values are rationals."
  },
  {
   "property": "C152",
   "status": "proved",
   "theorems": [
    "C152_cossin"
   ],
   "note": "C152_cossin. For an x of whole numbers the code would store whole numbers; the model is over the reals."
  },
  {
   "property": "C153",
   "status": "partial",
   "theorems": [
    "C153_none_refuted",
    "C153_zip2"
   ],
   "note": "C153_zip2 for at least one iterator. Without any, python's zip ends at once but zip2 never ends (C153_none_refuted)."
  },
  {
   "property": "C154",
   "status": "partial",
   "theorems": [
    "C154_digits_partial",
    "C154_small_refuted"
   ],
   "note": "C154_digits_partial: right from 10 on. For all numbers below 10 the result is 2 instead of 1, since the maximum with 1 is taken of the logarithm and not of the number (C154_small_refuted)."
  },
  {
   "property": "C155",
   "status": "partial",
   "theorems": [
    "C155_keep",
    "C155_last",
    "C155_length",
    "C155_ratio",
    "C155_tail",
    "C155_total_partial",
    "C155_total_refuted"
   ],
   "note": "C155_length, C155_keep, C155_tail, C155_ratio, C155_total_partial. Asking for exactly as many values as come before the cut is an error (C155_total_refuted). A beam that never falls below the cut still has its last value replaced by the cut (C155_last). Beams of one dimension, real numbers; normalize is not modelled (it divides the array of the caller in place)."
  },
  {
   "property": "C156",
   "status": "proved",
   "theorems": [
    "C156_between"
   ],
   "note": "C156_between, on exact numbers."
  },
  {
   "property": "C157",
   "status": "proved",
   "theorems": [
    "C157_hasoff",
    "C157_wide"
   ],
   "note": "C157_hasoff; C157_wide: above one half every number is accepted. Exact numbers."
  },
  {
   "property": "C158",
   "status": "partial",
   "theorems": [
    "C158_compatible_partial",
    "C158_drift_refuted",
    "C158_rotation_refuted"
   ],
   "note": "C158_compatible_partial: for equal pixel sizes and no rotation. Pixel sizes that differ by less than the tolerance are accepted although the centres drift apart (C158_drift_refuted). A rotation matrix in only one of the headers is not compared (C158_rotation_refuted). Projections are not modelled."
  },
  {
   "property": "C159",
   "status": "partial",
   "theorems": [
    "C159_postflat_negative_refuted",
    "C159_postflat_partial",
    "C159_preflat_negative_refuted",
    "C159_preflat_partial"
   ],
   "note": "C159_preflat_partial, C159_postflat_partial, unless the remaining axes make the array empty (numpy then refuses). A negative number for preflat flattens everything (C159_preflat_negative_refuted), and for postflat it acts like the positive number (C159_postflat_negative_refuted)."
  },
  {
   "property": "C160",
   "status": "proved",
   "theorems": [
    "C160_fewer",
    "C160_more"
   ],
   "note": "C160_more, C160_fewer (the other axes not of length zero, where numpy cannot infer the merged length)."
  },
  {
   "property": "C161",
   "status": "partial",
   "theorems": [
    "C161_ends_partial",
    "C161_ends_refuted",
    "C161_line"
   ],
   "note": "C161_line. C161_ends_partial: with w=1 both ends become zero. With more samples the averages of the ends still differ whenever they differed before, since the slope is divided by one less than the length instead of the distance of the middles of the ends (C161_ends_refuted). One row, the mean as the average, real numbers."
  },
  {
   "property": "C162",
   "status": "partial",
   "theorems": [
    "C162_constant_refuted",
    "C162_linear",
    "C162_range_partial"
   ],
   "note": "C162_range_partial, C162_linear, for arrays with two different values. An array of equal values gives nan (C162_constant_refuted)."
  },
  {
   "property": "C163",
   "status": "partial",
   "theorems": [
    "C163_grid_partial",
    "C163_single_refuted"
   ],
   "note": "C163_grid_partial. A single sample with endpoint gives nan, where linspace gives the start (C163_single_refuted). One axis; the order of axes is not modelled."
  },
  {
   "property": "C164",
   "status": "partial",
   "theorems": [
    "C164_backwards_refuted",
    "C164_box_partial",
    "C164_point"
   ],
   "note": "C164_box_partial, C164_point. A box given backwards keeps its start but extends forwards from it, so that it covers other pixels (C164_backwards_refuted). Given a pixel box or central pixel; the conversion from sky coordinates is not part of it."
  },
  {
   "property": "C165",
   "status": "partial",
   "theorems": [
    "C165_address",
    "C165_nonzero_partial",
    "C165_nonzero_refuted",
    "C165_others"
   ],
   "note": "C165_address, C165_others, C165_nonzero_partial (if no longer axis has a zero stride). In front of a broadcast axis the stride stays zero (C165_nonzero_refuted)."
  },
  {
   "property": "C166",
   "status": "proved",
   "theorems": [
    "C166_covariance",
    "C166_entries",
    "C166_scalar",
    "C166_single"
   ],
   "note": "C166_entries, C166_single, C166_scalar, C166_covariance, at one multipole."
  },
  {
   "property": "C167",
   "status": "partial",
   "theorems": [
    "C167_object_refuted",
    "C167_parts_partial"
   ],
   "note": "C167_parts_partial for a shape and a wcs. Made from another geometry or a map it always fails, since the assertion looks at the argument instead of the wcs found (C167_object_refuted). Its downgrade passes an op that downgrade_geometry does not take, and so always fails (not modelled)."
  },
  {
   "property": "C168",
   "status": "proved",
   "theorems": [
    "C168_expand"
   ],
   "note": "C168_expand, without explicit signs."
  },
  {
   "property": "C169",
   "status": "partial",
   "theorems": [
    "C169_offsets_refuted",
    "C169_rings_partial"
   ],
   "note": "C169_rings_partial for angles, numbers of pixels and longitudes. The places of the rings in the map are not limited with them: whenever a ring is dropped there are more places than rings, and the result describes no list of rings (C169_offsets_refuted)."
  },
  {
   "property": "C170",
   "status": "partial",
   "theorems": [
    "C170_long_refuted",
    "C170_pad_partial"
   ],
   "note": "C170_pad_partial. A spectrum that is already longer is an error instead of being cut (C170_long_refuted)."
  },
  {
   "property": "C171",
   "status": "partial",
   "theorems": [
    "C171_inside",
    "C171_nopad_refuted",
    "C171_size_partial",
    "C171_size_refuted"
   ],
   "note": "C171_size_partial: unless the size is odd and the position half way between pixels; then it can be one too large or empty (C171_size_refuted). C171_inside for a padding of at least one, the default; without padding it can reach beyond the map (C171_nopad_refuted). One axis, exact numbers, given the pixel position."
  },
  {
   "property": "C172",
   "status": "partial",
   "theorems": [
    "C172_constant_refuted",
    "C172_ends",
    "C172_legendre_partial"
   ],
   "note": "C172_legendre_partial, C172_ends, for at least two different x; otherwise the result is nan (C172_constant_refuted). Real numbers."
  },
  {
   "property": "C173",
   "status": "partial",
   "theorems": [
    "C173_default",
    "C173_dtype_refuted",
    "C173_range_partial",
    "C173_words"
   ],
   "note": "C173_range_partial (step not 0, which raises), C173_default, C173_words. Without dtype, the default of parse_numbers, everything fails, since None is called (C173_dtype_refuted). Whole numbers; splitting of the text is not modelled; numbers after the third of a word are ignored."
  },
  {
   "property": "C174",
   "status": "proved",
   "theorems": [
    "C174_pad"
   ],
   "note": "C174_pad, along one axis."
  },
  {
   "property": "C175",
   "status": "partial",
   "theorems": [
    "C175_joined_refuted",
    "C175_points",
    "C175_steps_kept"
   ],
   "note": "C175_points, C175_steps_kept. Steps are added: when more than two points outside the area lie between two visits, the ones in the middle are left out and their neighbours joined (C175_joined_refuted). Finite and inside are arbitrary tests of points."
  },
  {
   "property": "C176",
   "status": "partial",
   "theorems": [
    "C176_bounds_partial",
    "C176_none_refuted"
   ],
   "note": "C176_bounds_partial for at least one box, along one axis; without boxes the call fails (C176_none_refuted)."
  },
  {
   "property": "C177",
   "status": "partial",
   "theorems": [
    "C177_back_partial",
    "C177_monopole_refuted",
    "C177_scale"
   ],
   "note": "C177_scale, C177_back_partial for l at least 1; l=0 is set to zero and lost (C177_monopole_refuted). Without the argument l; real numbers."
  }
 ]
}