{"id": "C01", "title": "Map slicing keeps every pixel on its sky position", "statement": "For a map whose pixel<->sky relation is affine along an axis, m[a:b:s] returns a map whose output pixel i has the sky coordinate of the centre of the input pixels start+s*i .. start+s*(i+1)-1 (for step +-1: exactly the sky coordinate of input pixel start+s*i), and whose value is the input value at pixel start+s*i.", "quantifier": "every axis length, every in-range start/stop, every non-zero step, every affine wcs", "why_tests_cant": "unbounded family of (n,start,stop,step,crpix,cdelt,crval); tests sample a handful of slices", "anchors": ["pixell/enmap.py:slice_geometry", "pixell/enmap.py:ndmap.__getitem__", "pixell/utils.py:expand_slice"]}
{"id": "C02", "title": "Slicing a geometry twice equals slicing once with the composed slice", "statement": "slice_geometry(slice_geometry(g,s1),s2) has the same shape and pixel<->sky relation as slice_geometry(g, s1 then s2 composed).", "quantifier": "all pairs of in-range slices with arbitrary positive or negative steps and every affine wcs", "why_tests_cant": "needs all pairs of slices; an algebraic law", "anchors": ["pixell/enmap.py:slice_geometry"]}
{"id": "C03", "title": "Slice normalisation agrees with python slicing", "statement": "expand_slice(sel,n) selects exactly the indices that python's own slicing selects, and the shape slice_geometry reports is the length numpy produces.", "quantifier": "every start/stop/step (including omitted, negative and out-of-range) and every n", "why_tests_cant": "the failing cases are specific sign/range combinations", "anchors": ["pixell/utils.py:expand_slice", "pixell/enmap.py:slice_geometry"]}
{"id": "C04", "title": "downgrade/upgrade are inverse and conserve the mean", "statement": "upgrading by f and then downgrading by f returns the original values and pixel grid; downgrading replaces each pixel by the mean of its f x f block, so the total of the covered pixels equals f*f times the total of the result.", "quantifier": "every map size, factor and content", "why_tests_cant": "holds per block for unbounded sizes and factors", "anchors": ["pixell/enmap.py:downgrade", "pixell/enmap.py:upgrade", "pixell/enmap.py:downgrade_geometry", "pixell/enmap.py:upgrade_geometry", "pixell/utils.py:block_reduce", "pixell/utils.py:block_expand"]}
{"id": "C05", "title": "Extracting a pixel box returns exactly the requested pixels", "statement": "extract_pixbox(m, box) returns a map of the size of the box whose pixel (i,j) is m at box start + (i,j) where that pixel is inside m (taking sky wrapping into account when requested) and the fill value elsewhere; inserting the result back at the same box leaves m unchanged.", "quantifier": "every map, every integer box (in, partly out, entirely out, larger than the map) and every wrap length at least the map size", "why_tests_cant": "boxes straddle the edges in unboundedly many ways", "anchors": ["pixell/enmap.py:extract_pixbox", "pixell/enmap.py:insert_at", "pixell/utils.py:sbox_intersect", "pixell/utils.py:sbox_wrap"]}
{"id": "C06", "title": "Padding and unpadding are inverse", "statement": "pad(m,n) embeds m: every original pixel keeps its value and sky position, new pixels hold the fill value (or the wrapped value when wrap=True), and cropping by the returned slice gives m back.", "quantifier": "every map and every non-negative padding on each side", "why_tests_cant": "unbounded sizes; fails on zero widths with wrap", "anchors": ["pixell/enmap.py:pad"]}
{"id": "C07", "title": "autocrop never removes data", "statement": "autocrop only removes border rows and columns that are blank, never more than needed to reach the target size, and keeps every non-blank pixel at its sky position.", "quantifier": "every map content and every target size function", "why_tests_cant": "depends on an arbitrary pattern of blank pixels", "anchors": ["pixell/enmap.py:autocrop", "pixell/enmap.py:find_blank_edges"]}
{"id": "C08", "title": "padslice always returns the requested box", "statement": "padslice(m, box) returns an array of exactly the size of the box, equal to m where the box overlaps m and to the default elsewhere.", "quantifier": "every map size and every integer box with start<=stop, including ones that miss the map", "why_tests_cant": "many overlap configurations per axis", "anchors": ["pixell/enmap.py:padslice"]}
{"id": "C09", "title": "Crossfaded padded tiles reproduce the map", "statement": "Splitting a map with padtiles and writing each unmodified tile back accumulates to the original map: the crossfade weights at every pixel sum to one.", "quantifier": "every map size, tile size and pad with 2*pad<=tile size", "why_tests_cant": "the weights depend on position relative to every tile edge, for all sizes", "anchors": ["pixell/enmap.py:padtiles", "pixell/enmap.py:Padtiler"]}
{"id": "C10", "title": "Fourier resampling keeps every shared mode in place", "statement": "resample_fft to a larger size and back is the identity, and every Fourier mode representable in both sizes keeps its (signed) frequency.", "quantifier": "every pair of sizes, even or odd, and every spectrum", "why_tests_cant": "parity-dependent index bookkeeping for all size pairs", "anchors": ["pixell/fft.py:resample_fft", "pixell/enmap.py:resample_fft", "pixell/resample.py:resample_fft"]}
{"id": "C11", "title": "Recentring a cylindrical wcs does not move the sky", "statement": "wcsutils.recenter_cyl_x / fix_wcs return a wcs that assigns to every pixel the same sky position (modulo 360 degrees in longitude) as the original.", "quantifier": "every affine cylindrical wcs and every target pixel", "why_tests_cant": "an identity over continuous parameters", "anchors": ["pixell/wcsutils.py:recenter_cyl_x", "pixell/wcsutils.py:fix_wcs"]}
{"id": "C12", "title": "Scaling a wcs keeps the map corners or reference", "statement": "wcsutils.scale(wcs,s) with corner=True maps the pixel-edge coordinate s*e of the new grid to the sky point of edge e of the old one, so map corners are preserved; scaling by s and then 1/s is the identity.", "quantifier": "every affine wcs and every non-zero scale", "why_tests_cant": "identity over continuous parameters", "anchors": ["pixell/wcsutils.py:scale"]}
{"id": "C13", "title": "1-d pixelisation covers the requested interval", "statement": "pixelize_1d(w,res/n,offs) produces pixels whose first and last centres sit at the requested offsets from the interval ends, spaced by the resulting resolution.", "quantifier": "every width, every count/resolution, every offset pair, periodic or not", "why_tests_cant": "continuous parameters and all sizes", "anchors": ["pixell/wcsutils.py:pixelize_1d", "pixell/wcsutils.py:pixelization"]}
{"id": "C14", "title": "Pixel areas add up to the map area", "statement": "For a cylindrical map the exact pixel areas summed over the map equal the area of the spherical zone it covers, whatever the number of rows.", "quantifier": "every number of rows/columns and every monotone row-edge declination sequence", "why_tests_cant": "a telescoping identity over all sizes", "anchors": ["pixell/enmap.py:area_cyl", "pixell/enmap.py:pixsizemap"]}
{"id": "C15", "title": "Polarisation rotation is a group action", "statement": "rotate_pol by a then b equals rotate_pol by a+b, rotation by 0 is the identity, rotation by -a undoes a, and Q^2+U^2 is preserved for every spin.", "quantifier": "every angle, spin and Q/U value", "why_tests_cant": "identity over the reals", "anchors": ["pixell/enmap.py:rotate_pol", "pixell/aberration.py:rotate_pol"]}
{"id": "C16", "title": "Component grouping by spin covers each component once", "statement": "spin_helper(spin,n) splits components 0..n-1 into consecutive groups covering each exactly once, one component for spin 0 and two for non-zero spin, or fails.", "quantifier": "every spin list and every n", "why_tests_cant": "arbitrary cyclic spin patterns and lengths", "anchors": ["pixell/enmap.py:spin_helper", "pixell/enmap.py:spin_pre_helper"]}
{"id": "C17", "title": "Delayed map reads are repeatable", "statement": "Reading the same section twice from a map opened for delayed reading returns the same values, and equals the corresponding section of the fully loaded map.", "quantifier": "every history of section reads on one proxy", "why_tests_cant": "a history property: the second read can differ from the first", "anchors": ["pixell/enmap.py:ndmap_proxy_fits.__getitem__", "pixell/enmap.py:get_stokes_flips"]}
{"id": "C18", "title": "mask2range lists exactly the true runs", "statement": "mask2range(mask) returns sorted, disjoint, non-adjacent, non-empty half-open ranges whose union is exactly the set of True positions.", "quantifier": "every boolean mask of every length", "why_tests_cant": "all masks of all lengths", "anchors": ["pixell/utils.py:mask2range"]}
{"id": "C19", "title": "Range set operations are set operations", "statement": "range_sub(a,b) covers exactly the points of a not in b; range_union covers exactly the union; range_normalize keeps the same points using only non-empty increasing ranges; range_cut(a,c) keeps the points of a but cuts its ranges exactly at the given positions.", "quantifier": "all lists of integer ranges meeting the documented preconditions", "why_tests_cant": "arbitrarily many overlapping ranges", "anchors": ["pixell/utils.py:range_sub", "pixell/utils.py:range_union", "pixell/utils.py:range_normalize", "pixell/utils.py:range_cut"]}
{"id": "C20", "title": "Slice boxes behave like index sequences", "statement": "For slice boxes [start,stop,step], sbox_size is the number of indices, sbox_flip lists the same indices backwards, sbox_intersect lists exactly the common indices, sbox_mul selects the composition a[b], sbox_div inverts it, and sbox_wrap cuts a box into pieces that each lie inside one period and together visit the same pixels.", "quantifier": "every integer start/stop, every non-zero step, every wrap and cap", "why_tests_cant": "number-theoretic (congruence) claims over all integers", "anchors": ["pixell/utils.py:sbox_intersect_1d", "pixell/utils.py:sbox_mul", "pixell/utils.py:sbox_div", "pixell/utils.py:sbox_flip", "pixell/utils.py:sbox_size", "pixell/utils.py:sbox_fix", "pixell/utils.py:sbox_wrap"]}
{"id": "C21", "title": "Work splitting is a balanced partition", "statement": "greedy_split / equal_split / greedy_split_simple assign every item to exactly one of n groups, never lose or duplicate an item, and the heaviest group exceeds the lightest by at most the largest single weight.", "quantifier": "every weight list and every number of groups", "why_tests_cant": "arbitrary weights and group counts", "anchors": ["pixell/utils.py:equal_split", "pixell/utils.py:greedy_split", "pixell/utils.py:greedy_split_simple"]}
{"id": "C22", "title": "Index lookups find the value they claim", "statement": "find(array,vals) returns for every requested value an index holding that value, or fails/returns the default when it is absent; contains agrees with membership; nearest_ind returns an index of minimal distance; inverse_order composes with order to the identity; complement_inds is the set complement.", "quantifier": "every array, every query list, every permutation", "why_tests_cant": "search arguments over all arrays", "anchors": ["pixell/utils.py:find", "pixell/utils.py:contains", "pixell/utils.py:nearest_ind", "pixell/utils.py:inverse_order", "pixell/utils.py:complement_inds"]}
{"id": "C23", "title": "Angle rewinding and unwinding", "statement": "rewind returns a value congruent to the input modulo the period inside [ref-period/2, ref+period/2); unwind keeps values congruent and leaves no jump larger than half a period between neighbours.", "quantifier": "every sequence, positive period and reference", "why_tests_cant": "continuous inputs of every length", "anchors": ["pixell/utils.py:rewind", "pixell/utils.py:unwind", "pixell/aberration.py:fast_rewind"]}
{"id": "C24", "title": "Binning covers every multipole once", "statement": "linbin and expbin return contiguous non-empty bins that partition [0,n) (or the documented range), and bin_data gives each bin the mean of its members; bin_expand repeats it back.", "quantifier": "every n and bin count/size", "why_tests_cant": "all sizes; termination for all arguments", "anchors": ["pixell/utils.py:linbin", "pixell/utils.py:expbin", "pixell/utils.py:bin_data", "pixell/utils.py:bin_expand", "pixell/utils.py:edges2bins", "pixell/utils.py:bins2edges"]}
{"id": "C25", "title": "Block reduction and expansion", "statement": "block_expand repeats each block value over its block and block_reduce averages (or sums) each block, so reduce after expand is the identity for every size, block size and offset, including partial end blocks.", "quantifier": "every array length, block size, offset and inclusive flag", "why_tests_cant": "all sizes and offsets", "anchors": ["pixell/utils.py:block_reduce", "pixell/utils.py:block_expand"]}
{"id": "C26", "title": "nditer visits every index exactly once in row-major order", "statement": "utils.nditer(shape) yields exactly the index tuples of the shape, each once, in row-major order.", "quantifier": "every shape, including zero-length axes and the empty shape", "why_tests_cant": "all shapes", "anchors": ["pixell/utils.py:nditer"]}
{"id": "C27", "title": "Sexagesimal conversion round-trips", "statement": "from_sexa(*to_sexa(x)) = x with minutes and seconds in [0,60), and the formatted text keeps the sign.", "quantifier": "every real angle", "why_tests_cant": "continuous input; sign lost only in a thin band", "anchors": ["pixell/utils.py:to_sexa", "pixell/utils.py:from_sexa", "pixell/utils.py:format_sexa"]}
{"id": "C28", "title": "CG keeps its residual honest and resumes exactly", "statement": "At every iteration of CG the stored residual equals b - A x for the current x, and a run saved at any step and loaded later continues exactly as the uninterrupted run. For a symmetric positive definite system it gets to the solution in at most as many steps as the system has dimensions, without dividing by zero.", "quantifier": "every linear operator, right-hand side, preconditioner, number of steps and save point", "why_tests_cant": "histories with a crash/restart at every step", "anchors": ["pixell/utils.py:CG"]}
{"id": "C29", "title": "cache_get caches", "statement": "cache_get(cache,key,op) evaluates op at most once per key for a given cache and always returns the value op gave the first time.", "quantifier": "every history of calls", "why_tests_cant": "history property", "anchors": ["pixell/utils.py:cache_get"]}
{"id": "C30", "title": "Labelling groups equal values and only those", "statement": "find_equal_groups / label_unique put two entries in the same group exactly when they are equal; label_multi gives equal labels exactly to equal tuples.", "quantifier": "every value list", "why_tests_cant": "arbitrary equality patterns", "anchors": ["pixell/utils.py:find_equal_groups", "pixell/utils.py:label_unique", "pixell/utils.py:label_multi"]}
{"id": "C31", "title": "Concatenate/split bookkeeping round-trips", "statement": "uncat undoes concatenation for every list of lengths; allgatherv returns the concatenation of every rank's array in rank order; multimap.maps[i] returns exactly the i-th input map.", "quantifier": "every number of pieces/ranks and every length, including zero", "why_tests_cant": "all lengths and rank counts", "anchors": ["pixell/utils.py:uncat", "pixell/utils.py:allgatherv", "pixell/multimap.py:multimap"]}
{"id": "C32", "title": "Point in polygon", "statement": "point_in_polygon reports inside exactly for points inside the polygon.", "quantifier": "every polygon and point", "why_tests_cant": "degenerate vertex alignments are missed by random tests", "anchors": ["pixell/utils.py:point_in_polygon"]}
{"id": "C33", "title": "nearest_product", "statement": "nearest_product(n,factors,'below') returns the largest product of the factors not above n; 'above' the smallest not below.", "quantifier": "every n and factor list", "why_tests_cant": "all n", "anchors": ["pixell/utils.py:nearest_product"]}
{"id": "C34", "title": "Partial flatten/expand and array reshaping round-trip", "statement": "partial_expand(partial_flatten(a,axes),a.shape,axes) returns a.", "quantifier": "every shape and axis list", "why_tests_cant": "all shapes", "anchors": ["pixell/utils.py:partial_flatten", "pixell/utils.py:partial_expand"]}
{"id": "C35", "title": "Tiles partition the map", "statement": "A tiled geometry's tiles are disjoint and cover every pixel of the map exactly once; tile numbers and grid positions are inverse; the per-tile pixel counts add up to the map's.", "quantifier": "every map shape and tile shape", "why_tests_cant": "all sizes, incl. tiles that do not divide the map", "anchors": ["pixell/tilemap.py:geometry", "pixell/tilemap.py:_TileGeometry"]}
{"id": "C36", "title": "Tile map round-trips", "statement": "Cutting a map into tiles and reassembling returns the map; inactive tiles read as zero.", "quantifier": "every map, tile shape and set of active tiles", "why_tests_cant": "all active-tile subsets", "anchors": ["pixell/tilemap.py:from_tiles", "pixell/tilemap.py:to_enmap", "pixell/tilemap.py:TileMap"]}
{"id": "C37", "title": "with_tiles activates the requested tiles", "statement": "with_tiles(other) returns a map whose active tiles include every requested tile, keeps the values of the tiles it had, and has zeros in newly active ones.", "quantifier": "every pair of active-tile lists", "why_tests_cant": "fails for particular list lengths", "anchors": ["pixell/tilemap.py:TileMap.with_tiles", "pixell/tilemap.py:_TileGeometry.copy"]}
{"id": "C38", "title": "Arithmetic on tile maps is arithmetic on full maps", "statement": "For maps with different active tiles, a op b expanded to a full map equals op applied to the expanded maps.", "quantifier": "every op among + - * / comparisons, every pair of active sets and contents", "why_tests_cant": "depends on which tiles are active in which operand", "anchors": ["pixell/tilemap.py:_binop"]}
{"id": "C39", "title": "MPI redistribution moves each tile to its owner", "statement": "redistribute delivers to each rank, for each of its active tiles, the sum over all ranks of their values for that tile.", "quantifier": "every number of ranks and every assignment/order of active tiles", "why_tests_cant": "all distributed layouts and message orders", "anchors": ["pixell/tilemap.py:redistribute", "pixell/utils.py:redistribute"]}
{"id": "C40", "title": "Memory pool never hands out overlapping live buffers", "statement": "Between resets, buffers returned by the pool are disjoint, aligned and inside memory the pool owns; after reset the memory can be reused; repeated identical cycles eventually allocate nothing new.", "quantifier": "every history of allocations and resets", "why_tests_cant": "all interleavings of sizes", "anchors": ["pixell/device.py:Mempool", "pixell/device.py:round_up"]}
{"id": "C41", "title": "alm index layout is a bijection", "statement": "alm_info's (l,m)->index map is injective on valid (l,m), stays inside nelem, and for the triangular layout covers it exactly; lmax is recovered from the number of coefficients.", "quantifier": "every lmax, mmax and layout", "why_tests_cant": "all lmax", "anchors": ["pixell/curvedsky.py:alm_info", "pixell/curvedsky.py:nalm2lmax"]}
{"id": "C42", "title": "alm2cl does not depend on threading and equals its formula", "statement": "alm2cl gives C_l = (a_l0 b_l0 + 2 sum_m Re(a_lm conj b_lm))/(2l+1) for every l regardless of the order in which threads process multipoles.", "quantifier": "every lmax, coefficients and schedule", "why_tests_cant": "all schedules", "anchors": ["cython/cmisc_core.c:alm2cl_dp"]}
{"id": "C43", "title": "alm reordering is a permutation", "statement": "transposing an alm array from m-major to l-major order moves every coefficient to its unique new slot, losing none.", "quantifier": "every lmax, mmax", "why_tests_cant": "all sizes", "anchors": ["cython/cmisc_core.c:transpose_alm_dp"]}
{"id": "C44", "title": "lmul and lmatmul touch only their own multipoles", "statement": "Multiplying an alm by f_l changes a_lm to f_l a_lm for l within the filter, zero beyond, and never writes outside the array, whether the filter is longer or shorter than lmax, in both precisions.", "quantifier": "every lmax and filter length", "why_tests_cant": "out-of-range writes appear only for particular lengths", "anchors": ["cython/cmisc_core.c:lmul_dp", "cython/cmisc_core.c:lmatmul_sp", "cython/cmisc_core.c:lmatmul_dp"]}
{"id": "C45", "title": "transfer_alm copies the common modes", "statement": "transfer_alm(i,o) combines exactly the (l,m) valid in both layouts and leaves all other output coefficients unchanged.", "quantifier": "every pair of layouts", "why_tests_cant": "all pairs of lmax/mmax", "anchors": ["cython/cmisc_core.c:transfer_alm_dp", "pixell/curvedsky.py:transfer_alm"]}
{"id": "C46", "title": "Random alms agree across resolutions", "statement": "rand_alm with the same seed gives the same low multipoles whatever lmax.", "quantifier": "every seed, pair of lmax and number of components", "why_tests_cant": "for all lmax pairs", "anchors": ["pixell/curvedsky.py:rand_alm_white", "pixell/curvedsky.py:fill_gauss"]}
{"id": "C47", "title": "HEALPix ring bookkeeping", "statement": "Ring offsets and lengths tile [0,12 nside^2) exactly; pixel->(ring,position)->pixel is the identity both ways; neighbour lists contain only valid pixels and are symmetric.", "quantifier": "every nside and pixel", "why_tests_cant": "all nside", "anchors": ["cython/distances_core.c:build_healpix_info", "cython/distances_core.c:unravel_healpix", "cython/distances_core.c:get_healpix_neighs", "pixell/curvedsky.py:get_ring_info_healpix"]}
{"id": "C48", "title": "General-position transforms visit every map row", "statement": "Block-wise evaluation of pixel positions covers every row of the map exactly once.", "quantifier": "every map height and block size", "why_tests_cant": "fails only for sizes congruent to 1 modulo the block size", "anchors": ["pixell/curvedsky.py:calc_locinfo"]}
{"id": "C49", "title": "Transform buffers round-trip", "statement": "Copying a map into the flipped/padded transform buffer and back returns the map.", "quantifier": "every size, flip and padding", "why_tests_cant": "all combinations", "anchors": ["pixell/curvedsky.py:map2buffer", "pixell/curvedsky.py:buffer2map"]}
{"id": "C50", "title": "Iterative map2alm error recurrence", "statement": "Each Jacobi step multiplies the error of map2alm by (1 - approx_inverse*forward); an exact approximate inverse gives the exact answer at every iteration.", "quantifier": "every linear operator pair and iteration count", "why_tests_cant": "all operators", "anchors": ["pixell/curvedsky.py:jacobi_inverse"]}
{"id": "C51", "title": "Distance transforms never invent distances", "statement": "In a distance map made with the bubble, heap or simple method every pixel's distance is the distance to the point its domain names, never below the true nearest distance; on completion no neighbour's domain would be closer; the algorithm terminates.", "quantifier": "every set of points, distance function, flat map size and healpix resolution", "why_tests_cant": "work-list schedules and all point sets", "anchors": ["cython/distances_core.c:distance_from_points_bubble", "cython/distances_core.c:distance_from_points_heap_healpix", "cython/distances_core.c:distance_from_points_simple"]}
{"id": "C52", "title": "The priority queue pops the smallest", "statement": "pointheap_pop returns an entry of minimal distance and removes exactly that entry.", "quantifier": "every history of pushes and pops", "why_tests_cant": "needs specific interleavings", "anchors": ["cython/distances_core.c:pointheap_push", "cython/distances_core.c:pointheap_pop"]}
{"id": "C53", "title": "find_edges lists exactly the edge pixels", "statement": "find_edges returns exactly the zero pixels on the map boundary or next to a non-zero pixel.", "quantifier": "every mask of every non-empty size", "why_tests_cant": "all masks", "anchors": ["cython/distances_core.c:find_edges"]}
{"id": "C54", "title": "Source painting reaches every pixel in range once", "statement": "Every object is painted on every pixel inside its bounding box (with wrap-around), and on no pixel twice. The result does not depend on the order in which threads take the cells, and the transposed operation is the adjoint of painting.", "quantifier": "every map size, cell size, list of boxes, merge operation, profile and schedule", "why_tests_cant": "wrap-around with a partial last cell", "anchors": ["cython/srcsim_core.c:assign_cells", "cython/srcsim_core.c:pixbox2cellbox", "cython/srcsim_core.c:wrap_box", "cython/srcsim_core.c:floor_div"]}
{"id": "C55", "title": "The profile cut-off does not depend on how many objects are simulated", "statement": "The relevant radius of an object is the outermost profile radius whose value reaches vmin, whether or not the precomputed profile table is used.", "quantifier": "every profile, amplitude and vmin", "why_tests_cant": "thresholds crossing decades", "anchors": ["cython/srcsim_core.c:measure_rmax", "cython/srcsim_core.c:build_prof_info", "cython/srcsim_core.c:prof_info_lookup"]}
{"id": "C56", "title": "Radial binning puts each pixel in its bin", "statement": "radial_sum adds each pixel at distance r to the bin i with edges[i] <= r < edges[i+1], for equi-spaced and general bins.", "quantifier": "every sorted edge list and distance", "why_tests_cant": "all edge lists", "anchors": ["cython/srcsim_core.c:radial_sum", "cython/srcsim_core.c:binary_search", "cython/srcsim_core.c:equi_search"]}
{"id": "C57", "title": "Symmetric-matrix compression round-trips", "statement": "sym_expand(sym_compress(m)) = m for symmetric m in every scheme; the stable order for n elements is a prefix of that for more.", "quantifier": "every matrix size and scheme", "why_tests_cant": "all sizes", "anchors": ["pixell/powspec.py:sym_compress", "pixell/powspec.py:sym_expand", "pixell/powspec.py:compressed_order"]}
{"id": "C58", "title": "Haar wavelets reconstruct exactly", "statement": "HaarTransform.wave2map(map2wave(m)) = m for every number of levels.", "quantifier": "every map, level count and reference point", "why_tests_cant": "all sizes and levels", "anchors": ["pixell/wavelets.py:HaarTransform"]}
{"id": "C59", "title": "Wavelet filters form a partition of unity", "statement": "The squared wavelet filters sum to one at every multipole they are meant to cover.", "quantifier": "every multipole, number of scales and basis parameters", "why_tests_cant": "identity over all l", "anchors": ["pixell/wavelets.py:Butterworth", "pixell/wavelets.py:ButterTrim", "pixell/wavelets.py:CosineNeedlet"]}
{"id": "C60", "title": "Boost and deboost are inverse", "statement": "calc_boost_1d with -beta undoes calc_boost_1d with beta, and the two modulations multiply to one.", "quantifier": "every |beta|<1 and |z|<=1", "why_tests_cant": "identity over the reals", "anchors": ["pixell/aberration.py:calc_boost_1d"]}
{"id": "C61", "title": "Full-sky y-doubling", "statement": "The y-doubled map used for full-sky interpolation satisfies map[Ny,x] = map[Ny-1,x+Nx/2] and continues over the pole.", "quantifier": "every even-width map", "why_tests_cant": "all maps", "anchors": ["pixell/aberration.py:interpol_map"]}
{"id": "C62", "title": "Row rolling is a rotation", "statement": "roll_rows moves entry x of each row to (x+offset) mod nx, losing nothing.", "quantifier": "every row length and offset up to one turn", "why_tests_cant": "all offsets", "anchors": ["fortran/array_ops.F90:roll_rows"]}
{"id": "C63", "title": "Contour finding marks level crossings", "statement": "find_contours marks exactly the pixels whose right or lower neighbour lies in a different level bin.", "quantifier": "every map and sorted level list", "why_tests_cant": "all maps", "anchors": ["fortran/array_ops.F90:find_contours"]}
{"id": "C64", "title": "unmask undoes mask indexing", "statement": "unmask(x[mask],mask,fill=f) equals x where mask is true and f elsewhere, and unmask(arr,mask)[mask] == arr.", "quantifier": "every mask and every array of matching length", "why_tests_cant": "all masks and lengths", "anchors": ["pixell/utils.py:unmask"]}
{"id": "C65", "title": "listsplit splits like str.split", "statement": "listsplit(seq,elem) returns the unique non-empty list of pieces that contain no elem and rejoin with elem to seq.", "quantifier": "every sequence and separator", "why_tests_cant": "all sequences", "anchors": ["pixell/utils.py:listsplit"]}
{"id": "C66", "title": "Time scale conversions are inverse", "statement": "ctime, mjd, djd and jd conversions invert each other, agree at the unix epoch and advance one day per 86400 s.", "quantifier": "every (exact) time value", "why_tests_cant": "continuous inputs", "anchors": ["pixell/utils.py:ctime2mjd", "pixell/utils.py:mjd2ctime", "pixell/utils.py:mjd2djd", "pixell/utils.py:djd2mjd", "pixell/utils.py:mjd2jd", "pixell/utils.py:jd2mjd"]}
{"id": "C67", "title": "Reflected filling and cumulative splitting", "statement": "repeat_filler(d,n) has n elements and runs through d forwards and backwards periodically; cumsplit gives, for each capacity, the largest number of leading sizes that fit in the capacities so far.", "quantifier": "every array, length, size and capacity list", "why_tests_cant": "all lengths", "anchors": ["pixell/utils.py:repeat_filler", "pixell/utils.py:cumsplit"]}
{"id": "C68", "title": "Multimap elements are the maps put in", "statement": "multimap(maps).maps[i] is maps[i], pixels and geometry, for every index a list accepts, including negative ones as in the documented wmap.maps[-3].", "quantifier": "every list of maps with any shapes and every index", "why_tests_cant": "all shapes and indices", "anchors": ["pixell/multimap.py:multimap", "pixell/multimap.py:_map_view"]}
{"id": "C69", "title": "Planck spectra and modulation units", "statement": "planck and iplanck_T invert each other and dplanck is the derivative of planck with respect to temperature; modulating from thermodynamic to linearized units with A and back with 1/A (apply_modulation modes T2lin, lin2T and plain) returns the original map for every reference temperature T0; polarization rotation by -angle undoes rotation by angle.", "quantifier": "every frequency, temperature, unit, modulation and pixel value (real numbers)", "why_tests_cant": "continuous inputs", "anchors": ["pixell/utils.py:planck", "pixell/utils.py:iplanck_T", "pixell/utils.py:dplanck", "pixell/aberration.py:apply_modulation", "pixell/aberration.py:rotate_pol"]}
{"id": "C70", "title": "Rewinding pixel positions", "statement": "fast_rewind(a,period) moves every value by a whole number of periods, into 0:period as its caller states.", "quantifier": "every period and every value within one and a half periods of the middle", "why_tests_cant": "continuous inputs", "anchors": ["pixell/aberration.py:fast_rewind", "pixell/aberration.py:interpol_map"]}
{"id": "C71", "title": "Sky boxes become pixel ranges consistently", "statement": "subinds/submap: boxes that touch give pixel ranges that touch, so a chain of boxes selects every pixel of the whole box exactly once (modes round, floor, ceil); a box along pixel edges selects the pixels inside it; inclusive never selects less and exclusive never more than the box; cap keeps exactly the pixels inside the map; pixel (i,j) of submap's result has the value and sky position of the selected pixel, whichever way the box runs and across the wrap.", "quantifier": "every affine axis, box, direction, chain of boxes, map size and wrap", "why_tests_cant": "all boxes, both directions and all sizes", "anchors": ["pixell/enmap.py:subinds", "pixell/enmap.py:submap", "pixell/enmap.py:skybox2pixbox"]}
{"id": "C72", "title": "Full-sky and band geometries", "statement": "fullsky_geometry's rows go exactly from pole to pole and its columns exactly once around the sky for both variants, the same for shape and resolution, and resolutions that do not divide the sky are refused; band_geometry keeps the full-sky rows inside the declination cut, in the same way at both ends.", "quantifier": "every shape, resolution, variant and declination cut", "why_tests_cant": "all sizes and cuts", "anchors": ["pixell/enmap.py:fullsky_geometry", "pixell/enmap.py:band_geometry"]}
{"id": "C73", "title": "Thumbnails are centred", "statement": "thumbnail_geometry always gives an odd shape with coordinate 0 exactly at pixel shape//2, whose edge pixels are at the radius asked for (exactly for r and shape, within half a pixel for r and res) and which is at most one pixel larger than the shape asked for.", "quantifier": "every radius, resolution, shape and axis direction", "why_tests_cant": "continuous inputs and all shapes", "anchors": ["pixell/enmap.py:thumbnail_geometry"]}
{"id": "C74", "title": "Union and overlap of geometries", "statement": "union_geometry contains every pixel of all its compatible inputs at the same sky position and is no larger than needed; map_union has the pixels of both maps, added where they overlap; overlap is exactly the set of pixels both geometries have.", "quantifier": "every list of geometries on one pixel grid, every pair of maps", "why_tests_cant": "all relative positions and sizes", "anchors": ["pixell/enmap.py:union_geometry", "pixell/enmap.py:map_union", "pixell/enmap.py:overlap", "pixell/utils.py:bounding_box"]}
{"id": "C75", "title": "Interpolation transposes are the transposes", "statement": "For every pair of arrays x,y: spline_filter(x)\u00b7y = x\u00b7spline_filter(y,trans=True), and map_coordinates(x,points)\u00b7y = x\u00b7(what map_coordinates(trans=True) accumulates from y), whatever the order in which threads process lines and samples; the same for deriv=True.", "quantifier": "every array shape, order, border, list of sample positions and thread schedule (real numbers)", "why_tests_cant": "all inputs and schedules", "anchors": ["pixell/interpol.py:map_coordinates", "pixell/interpol.py:spline_filter", "fortran/interpol.F90:spline_filter1d", "fortran/interpol.F90:interpol", "fortran/interpol.F90:calc_weights"]}
{"id": "C76", "title": "Interpolation passes through the samples", "statement": "map_coordinates evaluated at integer coordinates returns exactly the sample there, for spline interpolation with prefiltering, and for conv and lanczos interpolation.", "quantifier": "every array shape, interpolation mode and order, border and pixel", "why_tests_cant": "all sizes, borders and pixels", "anchors": ["pixell/interpol.py:map_coordinates", "fortran/interpol.F90:spline_filter1d", "fortran/interpol.F90:interpol"]}
{"id": "C77", "title": "Boundary conditions of interpolation", "statement": "The interpolated value is the kernel-weighted sum over all cells around the position, where a cell outside the array contributes the sample the border names: the edge sample (nearest), the sample a whole number of array lengths away (cyclic), the reflected sample (mirror), or nothing (zero).", "quantifier": "every kernel, array shape and position inside or outside the array", "why_tests_cant": "continuous positions, all shapes", "anchors": ["fortran/interpol.F90:interpol", "fortran/interpol.F90:map_border"]}
{"id": "C78", "title": "Interpolation reproduces constants and gradients", "statement": "Interpolating constant data gives that constant at every position, also through the spline prefilter, and interpolating samples of a linear function with conv or spline kernels gives that function wherever the kernel lies inside the array.", "quantifier": "every kernel, order, array shape and position", "why_tests_cant": "continuous positions, all shapes", "anchors": ["pixell/interpol.py:map_coordinates", "fortran/interpol.F90:calc_weights", "fortran/interpol.F90:spline_filter1d"]}
{"id": "C79", "title": "Interpolation derivatives", "statement": "map_coordinates(deriv=True) returns the partial derivatives of what map_coordinates(deriv=False) returns with respect to the sample coordinates.", "quantifier": "every kernel, order, border, array shape, position and axis", "why_tests_cant": "limits over continuous positions", "anchors": ["pixell/interpol.py:map_coordinates", "fortran/interpol.F90:calc_weights_deriv", "fortran/interpol.F90:interpol_deriv"]}
{"id": "C80", "title": "Fourier transforms undo each other", "statement": "ifft(fft(a),normalize=True) is a, and fft(ifft(a,normalize=True)) is a, over one axis or both; a wave of frequency (ky,kx) transforms to a single number at index (ky mod ny, kx mod nx); real arrays have conjugate-symmetric spectra and irfft(rfft(a)) is a; enmap.fft and enmap.ifft are inverses for normalize=True and 'phys', normalize=True keeps the total power, and fft_adjoint/ifft_adjoint are the adjoints for every normalization.", "quantifier": "every array, shape, axes choice, normalization and pixel size (exact complex numbers)", "why_tests_cant": "all sizes and continuous values", "anchors": ["pixell/fft.py:fft", "pixell/fft.py:ifft", "pixell/fft.py:rfft", "pixell/fft.py:irfft", "pixell/enmap.py:fft", "pixell/enmap.py:ifft", "pixell/enmap.py:fft_adjoint", "pixell/enmap.py:ifft_adjoint"]}
{"id": "C81", "title": "Cosine, sine and Chebyshev transforms undo each other", "statement": "idct(dct(a,type),type,normalize=True) is a for all eight types over one axis or both; enmap.idct(enmap.dct(m)) is m; dct_adjoint is the adjoint of dct; chebt gives the Chebyshev coefficients of the polynomial through the samples along the last axis and ichebt evaluates them.", "quantifier": "every array, shape, type, axes choice and normalization (exact real numbers)", "why_tests_cant": "all sizes and continuous values", "anchors": ["pixell/fft.py:dct", "pixell/fft.py:idct", "pixell/fft.py:redft00", "pixell/fft.py:chebt", "pixell/fft.py:ichebt", "pixell/enmap.py:dct", "pixell/enmap.py:idct", "pixell/enmap.py:dct_adjoint"]}
{"id": "C82", "title": "Cyclic and fractional shifts", "statement": "fft.shift by whole pixels moves the elements cyclically; shifts add up; a band-limited pattern shifted by any amount is the pattern sampled at the moved positions; deriv gives the derivative with respect to the shift. enmap.shift and fractional_shift move the wcs with the pixels, so that values keep their place on the sky.", "quantifier": "every array, shape, axes choice and shift (exact complex numbers)", "why_tests_cant": "all sizes and continuous shifts", "anchors": ["pixell/fft.py:shift", "pixell/enmap.py:shift", "pixell/enmap.py:fractional_shift"]}
{"id": "C83", "title": "Fourier resampling", "statement": "fft.resample and enmap.resample of a band-limited pattern give the pattern sampled at the new pixels, with a wcs that puts them at the right place on the sky; a whole number of times more samples keeps the old ones; more samples and back gives the original; the three units of resample_fft agree.", "quantifier": "every band-limited pattern, input and output shape, offset and unit (exact complex numbers)", "why_tests_cant": "all sizes and continuous values", "anchors": ["pixell/fft.py:resample", "pixell/fft.py:resample_fft", "pixell/enmap.py:resample", "pixell/enmap.py:resample_fft", "pixell/wcsutils.py:scale"]}
{"id": "C84", "title": "Gaussian smoothing", "statement": "smooth_gauss of a real map multiplies every wave in it by exp(-l^2 sigma^2/2), with a negative sigma by the complement; smoothing twice is smoothing with the root of the summed squares; sigma and -sigma parts add up to the map; the mean is kept, the power never grows, and smoothing commutes with cyclic shifts. Only the real part of a complex map is smoothed and returned.", "quantifier": "every real map, shape, pixel size and sigma (exact real numbers)", "why_tests_cant": "all sizes and continuous values", "anchors": ["pixell/enmap.py:smooth_gauss"]}
{"id": "C85", "title": "Pixel windows", "statement": "apply_window with power p and then q is apply_window with p+q and unapply_window undoes it; the mean is kept; order 0 replaces every value of a band-limited map by the average of the pattern over the pixel (over a pixel scale times smaller with scale); order 1 gives the map whose bilinear interpolation has the same overlap with every pixel's hat function as the pattern, the least-squares condition; nofft works on the coefficients.", "quantifier": "every real map, shape, order 0, 1 or None, power, scale above 1/2 and band-limited pattern (exact real numbers)", "why_tests_cant": "continuous values and integrals over the sky", "anchors": ["pixell/enmap.py:apply_window", "pixell/enmap.py:unapply_window", "pixell/enmap.py:calc_window", "pixell/utils.py:pixwin_1d"]}
{"id": "C86", "title": "Flat-sky harmonics", "statement": "harm2map(map2harm(m)) is m for real maps, and for complex maps with keep_imag, and map2harm(harm2map(h,keep_imag)) is h, for every spin list that fits the components; otherwise both raise. normalize=True keeps inner products; map2harm_adjoint and harm2map_adjoint are the adjoints; a spin-s pair of maps made of waves with E and B amplitudes along their directions has these amplitudes as coefficients, in both conventions.", "quantifier": "every stack of maps, shape, pixel size, spin list, convention and normalization (exact complex numbers)", "why_tests_cant": "all sizes, component counts and spin lists", "anchors": ["pixell/enmap.py:map2harm", "pixell/enmap.py:harm2map", "pixell/enmap.py:map2harm_adjoint", "pixell/enmap.py:harm2map_adjoint", "pixell/enmap.py:queb_rotmat", "pixell/enmap.py:spin_helper"]}
{"id": "C87", "title": "Resampling axes of arrays", "statement": "resample.resample_fft gives an array with the lengths asked for along the axes asked for, and the values fft.resample gives: a band-limited pattern sampled more or less densely, the old samples among a whole number of times more new ones, the same array for the same lengths. resample multiplies each axis length by its factor and rounds to the nearest whole number.", "quantifier": "every array, list of lengths or factors, and axes in any order and sign (exact complex numbers)", "why_tests_cant": "all sizes, axes and continuous values", "anchors": ["pixell/resample.py:resample_fft", "pixell/resample.py:resample_fft_simple", "pixell/resample.py:resample"]}
{"id": "C88", "title": "Block averages and repeated samples", "statement": "downsample_bin gives the mean of every whole block along the axes asked for, so the total is kept when the blocks fit; upsample_bin, with axes named or a single step, repeats every sample in a block; downsample_bin undoes upsample_bin; resample_bin with factors k and 1/k does one or the other.", "quantifier": "every array, list of whole steps or factors, and axes in any order and sign (exact real numbers)", "why_tests_cant": "all sizes, steps and values", "anchors": ["pixell/resample.py:downsample_bin", "pixell/resample.py:upsample_bin", "pixell/resample.py:resample_bin"]}
{"id": "C89", "title": "Pixel coordinates and positions determine each other", "statement": "sky2pix gives back the pixel coordinates of the positions that pix2sky gives, and pix2sky the positions of the coordinates sky2pix gives, up to whole turns, whatever whole turns the coordinate library adds on the way; with safe=True the coordinates lie less than half a turn from the middle of the map and depend on the direction only. posmap, with or without its shortcut and for every block size, gives every pixel its position, with a right ascension that is continuous across the map.", "quantifier": "every separable geometry, list of points or positions, corner and safe option, and every number of turns the library adds", "why_tests_cant": "all geometries and continuous coordinates", "anchors": ["pixell/enmap.py:pix2sky", "pixell/enmap.py:sky2pix", "pixell/enmap.py:posmap", "pixell/enmap.py:posaxes"]}
{"id": "C90", "title": "The pixel a position is in", "statement": "Rounding sky2pix, or taking the floor of it with corner=True, gives the pixel that contains a position, and contains tells whether the map has one.", "quantifier": "every separable geometry at most a turn across and every position", "why_tests_cant": "all geometries and continuous positions", "anchors": ["pixell/enmap.py:sky2pix", "pixell/enmap.py:contains"]}
{"id": "C91", "title": "Pixel boxes of sky boxes", "statement": "skybox2pixbox gives a pixel box whose first corner is less than half a turn from the middle of the map and at the position of the first corner of the sky box, and whose corners are as far apart, in the same direction, as those of the sky box, also for boxes across the date line or around the sky.", "quantifier": "every separable geometry and box less than four and a half turns across, and every number of turns the library adds", "why_tests_cant": "all boxes and geometries", "anchors": ["pixell/enmap.py:skybox2pixbox"]}
{"id": "C92", "title": "Sky boxes of pixel boxes", "statement": "pixbox2skybox gives the positions of the corners of the pixel box, as far apart as those.", "quantifier": "every separable geometry and box", "why_tests_cant": "all boxes and geometries", "anchors": ["pixell/enmap.py:pixbox2skybox"]}
{"id": "C93", "title": "Fourier pixels and multipoles", "statement": "pix2l and l2pix are inverse to each other, for indices from 0 to the length of the axis and multipoles up to the Nyquist frequency, and pix2l of whole indices gives the multipoles of the discrete Fourier transform.", "quantifier": "every axis length, signed pixel size and fractional index", "why_tests_cant": "all lengths and continuous values", "anchors": ["pixell/enmap.py:pix2l", "pixell/enmap.py:l2pix", "pixell/fft.py:ind2freq", "pixell/fft.py:freq2ind"]}
{"id": "C94", "title": "Projecting onto the same pixels", "statement": "project without force copies a map onto its own geometry, and gives every pixel of a geometry with the same pixels the map's value at the same position, or cval outside the map.", "quantifier": "every map, and geometry whose pixels coincide with the map's", "why_tests_cant": "all shapes and offsets", "anchors": ["pixell/enmap.py:project"]}
{"id": "C95", "title": "Directions and angular distances", "statement": "ang2rect gives the unit vector of a direction and rect2ang the angles of a vector; going there and back gives the same vector direction, also at the poles, and the same angles away from them. angdist is the angle between two directions, from 0 to pi: symmetric, zero between equal directions only, and with the triangle inequality; vec_angdist is the angle between vectors of any length, and agrees with it.", "quantifier": "every direction and nonzero vector, with either convention for the polar angle (exact real numbers)", "why_tests_cant": "all continuous angles, including poles, equal and opposite directions", "anchors": ["pixell/utils.py:ang2rect", "pixell/utils.py:rect2ang", "pixell/utils.py:angdist", "pixell/utils.py:vec_angdist"]}
{"id": "C96", "title": "Rotations of the sphere", "statement": "rotmatrix turns vectors around an axis, euler_rot turns directions by three angles one after another; it keeps angular distances and is undone by the opposite angles in the opposite order; tele2hor and hor2tele undo each other.", "quantifier": "every angle, kind of Euler rotation and direction (exact real numbers)", "why_tests_cant": "all continuous angles", "anchors": ["pixell/utils.py:rotmatrix", "pixell/coordinates.py:euler_mat", "pixell/coordinates.py:euler_rot", "pixell/coordinates.py:tele2hor", "pixell/coordinates.py:hor2tele"]}
{"id": "C97", "title": "Recentring coordinates", "statement": "recenter moves the centre to the north pole or to the place asked for and keeps distances; decenter with the same centre undoes it, with and without restore, and so do bore2tele and tele2bore.", "quantifier": "every centre of two or four numbers or arrays, with and without restore, and every direction (exact real numbers)", "why_tests_cant": "all continuous angles and call sequences that reuse a centre", "anchors": ["pixell/coordinates.py:recenter", "pixell/coordinates.py:decenter", "pixell/coordinates.py:tele2bore", "pixell/coordinates.py:bore2tele"]}
{"id": "C98", "title": "Chains of coordinate systems", "statement": "transforming coordinates goes from the first system to the second in a finite chain of conversions, and transforming back gives the same direction, recentred or not.", "quantifier": "every pair of coordinate systems and references, and all conversions that undo each other", "why_tests_cant": "all pairs of systems, references and continuous angles", "anchors": ["pixell/coordinates.py:transform_raw", "pixell/coordinates.py:nohor"]}
{"id": "C99", "title": "A bunch is one dictionary with two ways in", "statement": "After any sequence of constructor calls, attribute and item assignments, deletions, updates and copies, every bunch reads the same by item, attribute, in, iteration, len and items: what was last stored under a name and not deleted since, in the order of first storing. A copy keeps what it has whatever happens to the original, and the other way round.", "quantifier": "every program over any number of bunches, and every name other than the bunch's own methods, _dict and names that begin with two underscores", "why_tests_cant": "all histories of operations", "anchors": ["pixell/bunch.py:Bunch"]}
{"id": "C100", "title": "Bunches in files", "statement": "Writing a bunch of bunches to a file, or to a group in a file, and reading it back gives the same values under the same names at every depth, with names in alphabetical order, and leaves other files alone; split_hdf_path splits a path at the last part with a dot and loses nothing.", "quantifier": "every tree of bunches with names that are not paths, every path, group and splitting mode, and every disk content", "why_tests_cant": "all depths, paths and previous files", "anchors": ["pixell/bunch.py:write", "pixell/bunch.py:read", "pixell/bunch.py:write_hdf", "pixell/bunch.py:read_hdf", "pixell/bunch.py:split_hdf_path"]}
{"id": "C101", "title": "Lists of bunches", "statement": "bunch.concatenate gives a bunch with the names of the first bunch, each with the list of the values all bunches have under it, in order and converted to the type of the first, and raises exactly if one of them is missing.", "quantifier": "every list of bunches of whole numbers and fractions", "why_tests_cant": "all lengths, names and values", "anchors": ["pixell/bunch.py:concatenate"]}
{"id": "C102", "title": "Derivatives of maps", "statement": "grad, div and laplace of a map of a pattern below the Nyquist frequency give its partial derivatives, their sum and the sum of its second derivatives at every pixel. For every real map, grad and minus div are adjoint, gradients and laplacians sum to zero, a map's inner product with its laplacian is not positive, and on grids with odd sides div of grad is laplace. grad_pix is grad over the pixel size, and does not depend on the directions of the axes.", "quantifier": "every real band-limited pattern, grid, pixel size and offset; every real map and pair of maps", "why_tests_cant": "all shapes and patterns, exact real numbers", "anchors": ["pixell/enmap.py:grad", "pixell/enmap.py:grad_pix", "pixell/enmap.py:div", "pixell/enmap.py:laplace"]}
{"id": "C103", "title": "Matching two catalogues", "statement": "crossmatch with mode \"all\" gives every pair of objects at most rmax apart (in angle for angular coordinates) exactly once and no others. With \"closest\" every object is in at most one pair, and whenever two objects are close one of them is in a pair that is no further apart, so mutually nearest objects are always matched. With \"first\" the same holds with the order of the catalogues instead of distances.", "quantifier": "every two catalogues of positions in space or on the sphere, every radius up to half a turn, and every order in which the search tree lists neighbours and the sort lists ties", "why_tests_cant": "all catalogues and all answers the tree and the sort may give", "anchors": ["pixell/utils.py:crossmatch", "pixell/utils.py:ang2chord"]}
{"id": "C104", "title": "Distances from a mask", "statement": "distance_transform gives every pixel its distance from the closest False pixel of the whole map, up to rmax, although it looks at the edges of the False regions only; labeled_distance_transform gives the distance from the closest labelled pixel and the label of one that is that close, and without rmax every labelled pixel its own label.", "quantifier": "every mask and map of labels, every flat map and every map of the sphere with straight rows and columns however wide, and every limit", "why_tests_cant": "all masks, shapes and pixel sizes", "anchors": ["pixell/enmap.py:distance_transform", "pixell/enmap.py:labeled_distance_transform", "pixell/enmap.py:distance_from", "cython/distances_core.c:find_edges", "cython/distances_core.c:find_edges_labeled"]}
{"id": "C105", "title": "Growing, shrinking and apodizing masks", "statement": "grow_mask makes True exactly the pixels closer than r to a True pixel, and shrink_mask keeps exactly those at least r from every False pixel, so that one is the other on the complement. apod_mask is 0 exactly at bad pixels (and on the border, unless told otherwise), 1 exactly where all bad pixels are at least the width away, and does not decrease with the distance between.", "quantifier": "every mask, positive radius and width, profile, and distance as in the previous property", "why_tests_cant": "all masks and radii", "anchors": ["pixell/enmap.py:grow_mask", "pixell/enmap.py:shrink_mask", "pixell/enmap.py:apod_mask", "pixell/enmap.py:apod_profile_cos", "pixell/enmap.py:apod_profile_lin"]}
{"id": "C106", "title": "Apodizing the edges of a map", "statement": "apod with fill zero multiplies the map by a taper along each axis that is 1 further than the width from the ends, symmetric, and rises inwards; with mean or median it does so to the deviation from that value, so constant maps stay as they are; with crossfade it mixes pixels near one end with pixels near the other, with shares below a half. Pixels away from the edges never change. It raises exactly if a positive width has an unknown profile or exceeds the axis.", "quantifier": "every map, pair of widths (up to half the axis for the values), profile and fill", "why_tests_cant": "all shapes, widths and values (exact real numbers)", "anchors": ["pixell/enmap.py:apod", "pixell/enmap.py:apod_profile_cos", "pixell/enmap.py:apod_profile_lin"]}
{"id": "C107", "title": "Redistributing slices of an array between tasks", "statement": "redistribute, called by every task with the slices of a large array it holds and the slices it wants, gives every task those slices: each element equals the large array's where some task holds it, and is zero elsewhere.", "quantifier": "every number of tasks, every list of strided, reversed or overlapping slices on each, and every array", "why_tests_cant": "all distributions, not only the tested ones, with the interplay of the order of sending and receiving", "anchors": ["pixell/utils.py:redistribute", "pixell/utils.py:sbox_intersect", "pixell/utils.py:sbox_div", "pixell/utils.py:sbox2slice"]}
{"id": "C108", "title": "Averages over rings", "statement": "rbin and lbin give, for every ring of the given width that fits completely around the centre, the mean of the map over exactly the pixels whose distance lies in the ring, the mean distance (which lies in the ring), and the number of pixels; nan exactly for rings without pixels. No pixel in these rings is lost or counted twice, and a change of units or zero point of the map carries over to the bins. A negative distance or an empty map raises.", "quantifier": "every map, map of distances or wavenumbers, bin size, scaling and transformation of the distances", "why_tests_cant": "all shapes, distances and bin sizes, exact real numbers", "anchors": ["pixell/enmap.py:rbin", "pixell/enmap.py:lbin", "pixell/enmap.py:_bin_helper"]}
{"id": "C109", "title": "Weighted quantiles", "statement": "weighted_quantile sorts the values, puts each at the share of the weight up to its middle, and reads the quantile off the straight lines between them, not beyond the first and last. It lies between the values, does not fall as the quantile rises, follows a change of units of the values and is not changed by one of the weights. With equal weights weighted_median is the ordinary median. If no two values are equal the order they came in does not matter.", "quantifier": "every list of values with weights (positive for the exact value and order, not negative otherwise), every quantile, and every order in which the sort lists equal values", "why_tests_cant": "all lengths, values and weights, exact real numbers", "anchors": ["pixell/utils.py:weighted_quantile", "pixell/utils.py:weighted_median", "pixell/utils.py:search"]}
{"id": "C110", "title": "Spherical harmonics synthesis", "statement": "alm2map gives every pixel of the map the value of the field that the alms describe at the pixel's position on the sky, exactly in declination with the methods cyl and general and within the given fraction of a pixel otherwise, whichever way the axes run and whatever part of the sky the map covers; pixels that are not on the sky keep their value. The method it chooses by itself does so too.", "quantifier": "every field, every cylindrical map (method 2d and the automatic choice: plate carree) that is at most once around the sky, every other projection for the general method, every orientation and tolerance up to 1e-6", "why_tests_cant": "all geometries: full sky, bands, patches, flipped, on and off every grid the library knows", "anchors": ["pixell/curvedsky.py:alm2map", "pixell/curvedsky.py:analyse_geometry", "pixell/curvedsky.py:get_ducc_geo", "pixell/curvedsky.py:alm2map_2d", "pixell/curvedsky.py:alm2map_cyl", "pixell/curvedsky.py:alm2map_general", "pixell/curvedsky.py:get_ring_info", "pixell/curvedsky.py:get_method"]}
{"id": "C111", "title": "The adjoint of spherical harmonics synthesis", "statement": "alm2map_adjoint is the adjoint of alm2map for the same geometry, tolerance and method: for every map and every set of coefficients, the sum over the pixels of the map times the transform of the coefficients is the sum over the coefficients times the adjoint of the map.", "quantifier": "every map, set of coefficients, geometry and method that alm2map supports", "why_tests_cant": "all maps and geometries, with flips and padding, exact real numbers", "anchors": ["pixell/curvedsky.py:alm2map_adjoint", "pixell/curvedsky.py:alm2map_2d", "pixell/curvedsky.py:alm2map_cyl", "pixell/curvedsky.py:alm2map_general", "pixell/curvedsky.py:alm2map_raw_2d", "pixell/curvedsky.py:alm2map_raw_cyl"]}
{"id": "C112", "title": "Spherical harmonics analysis", "statement": "map2alm gives coefficients that are sums over the pixels on the sky of the pixel's weight times its value times the field of the coefficient there. The weight of a row is that of the ring of ducc's grid that the row lies on, if there is one, and otherwise the area of the row's pixels; weights can also be given, row by row from the north, and quad_weights gives the ones of the grid. On maps where the method is 2d, map2alm recovers the coefficients that alm2map made the map from, as far as the grid determines them.", "quantifier": "every map, geometry, orientation and method as for alm2map, all weights, and every library that recovers the coefficients of a field from its values on a complete grid", "why_tests_cant": "all geometries, orientations and weights, exact real numbers", "anchors": ["pixell/curvedsky.py:map2alm", "pixell/curvedsky.py:map2alm_2d", "pixell/curvedsky.py:map2alm_cyl", "pixell/curvedsky.py:map2alm_general", "pixell/curvedsky.py:quad_weights"]}
{"id": "C113", "title": "Flat-sky wavelet transforms", "statement": "With a flat-sky harmonic transform, map2wave of a WaveletTransform gives wavelet maps that are the map filtered by each scale's filter, taken at the centres of the pixels of that scale and divided by its norm, and wave2map gives the map back exactly when the squares of the filters add up to one; get_ls gives the multipoles of each scale's own grid. The norms are such that a map with the same power in every mode gives wavelet maps with that mean square.", "quantifier": "every real map, every number of scales of every size up to that of the map, every set of even filters that keep only frequencies their grid holds, every norm that is not zero", "why_tests_cant": "a test on one map checks one set of sizes; the phases between grids of different sizes only show in the scales that are smaller than the map, and cancel for the first of them", "anchors": ["pixell/wavelets.py: WaveletTransform.map2wave, wave2map, get_ls, _prepare_filter", "pixell/enmap.py: resample_fft, modlmap", "pixell/fft.py: shift"]}
{"id": "C114", "title": "Fourier interpolation and nonuniform Fourier transforms", "statement": "interpol_nufft gives an array's own values at its pixels, repeats beyond it, evaluates every pattern of frequencies that the array holds exactly at any position, and agrees with shift; a FourierInterpolator gives the same whatever it prepares in advance. u2nu/inufft evaluate the Fourier series with the given coefficients and period, in either direction, and nufft_adjoint (nu2u) is the adjoint. nufft (iu2nu) finds coefficients whose series fits the samples in the least-squares sense to the accuracy asked for, always ends, and is the ordinary fft for samples at all the pixels; inufft_adjoint (inu2u) does the same for nu2u.", "quantifier": "every array, every list of positions, every period, sign, normalization and accuracy; for nufft and inufft_adjoint, data that are not zero as far as the fit can see", "why_tests_cant": "all positions, between and beyond the pixels; all conjugate gradient runs, however long; exact complex numbers", "anchors": ["pixell/fft.py:interpol_nufft", "pixell/fft.py:u2nu", "pixell/fft.py:nu2u", "pixell/fft.py:iu2nu", "pixell/fft.py:inu2u", "pixell/fft.py:nufft", "pixell/fft.py:inufft", "pixell/fft.py:nufft_adjoint", "pixell/fft.py:inufft_adjoint", "pixell/fft.py:u2nu_plan", "pixell/utils.py:FourierInterpolator"]}
{"id": "C115", "title": "Matched filters", "statement": "On a flat map with pixels of equal size, the matched filters of analysis.py give at the pixel of a source rho = flux times kappa. For noise given by its power spectrum, for noise independent from pixel to pixel and for the dual model this holds for every spectrum and depth, rho/kappa is in any map the flux that leaves the least misfit, and in the first two cases no linear estimator that gets fluxes right has a smaller variance, which is 1/kappa. For correlated noise modulated by the depth it holds if the correlations are white or the depth uniform, and at the centre of the map with high_acc. With several maps rho is the matrix kappa times the fluxes. rpow and rmul give the profiles that are powers and products of the given ones on the sky.", "quantifier": "every map size, even beam, noise spectrum, depth map, flux and pixel (exact numbers)", "why_tests_cant": "all spectra, depths, shapes and continuous fluxes", "anchors": ["pixell/analysis.py:matched_filter_constcov", "pixell/analysis.py:matched_filter_white", "pixell/analysis.py:matched_filter_constcorr_lowcorr", "pixell/analysis.py:matched_filter_constcorr_smoothivar", "pixell/analysis.py:matched_filter_constcorr_dual", "pixell/analysis.py:NmatConstcov", "pixell/analysis.py:NmatConstcorr", "pixell/analysis.py:rpow", "pixell/analysis.py:rmul", "pixell/uharm.py:UHT"]}
{"id": "C116", "title": "Displacements on the sphere", "statement": "offset_by_grad moves every position along the great circle that starts in the direction of its gradient by the gradient's length, also for moves over a pole, and the rotation it gives keeps polarization at the same angle to the path when lens_map_curved applies it. Without geodesics it adds coordinates. Both pole_wrap functions bring declinations past a pole back between the poles without changing the point.", "quantifier": "every number of samples, chunk size, position, gradient and rotation (exact real numbers)", "why_tests_cant": "all continuous positions and displacements, also near the poles", "anchors": ["pixell/lensing.py:offset_by_grad", "pixell/lensing.py:offset_by_grad_helper", "pixell/lensing.py:pole_wrap", "pixell/lensing.py:lens_map_curved", "pixell/utils.py:pole_wrap", "pixell/enmap.py:rotate_pol"]}
{"id": "C117", "title": "Lensing potential and convergence", "statement": "phi_to_kappa multiplies every coefficient by l(l+1)/2, and kappa_to_phi undoes this: either way round the coefficients are unchanged except that those with l = 0 become zero. The layout may be given or inferred from the number of coefficients.", "quantifier": "every layout, lmax, mmax and set of coefficients, and every schedule of the parallel loop", "why_tests_cant": "all layouts, sizes and schedules", "anchors": ["pixell/lensing.py:phi_to_kappa", "pixell/lensing.py:kappa_to_phi", "pixell/curvedsky.py:almxfl"]}
{"id": "C118", "title": "Boxes", "statement": "box_slice gives the part of one box that lies in another, relative to the other's first corner, and box_overlap its area, for single boxes and arrays of them with any number of axes; pad_box gives exactly the points within the padding of the box, whichever way its axes run, and can be undone; widen_box makes the sides longer by the margin, half at each end. box2corners gives every corner once, and box2contour the points that divide every edge evenly. unwrap_range gives the shortest range with the same ends modulo the period, straddling zero if it can.", "quantifier": "every box and number of axes, both directions of the axes, every margin, padding, period and number of samples", "why_tests_cant": "all continuous bounds, overlaps and relative positions", "anchors": ["pixell/utils.py:box_slice", "pixell/utils.py:box_area", "pixell/utils.py:box_overlap", "pixell/utils.py:widen_box", "pixell/utils.py:pad_box", "pixell/utils.py:unwrap_range", "pixell/utils.py:box2corners", "pixell/utils.py:box2contour"]}
{"id": "C119", "title": "Splitting strings", "statement": "split_by_group cuts a string into text and groups that go from a start character to the end character that belongs to it, nested groups of the same kind included, and loses nothing. split_outside gives pieces that give the string back when joined by the separator; it cuts at separators outside groups only, and leaves none of these in any piece. split_esc gives back any list of tokens that was joined by the delimiter after putting the escape character before delimiters and escape characters in the tokens.", "quantifier": "every string, separator of any length, set of start and end characters, delimiter, escape character and list of tokens", "why_tests_cant": "all strings, nestings and unbalanced cases", "anchors": ["pixell/utils.py:split_by_group", "pixell/utils.py:split_outside", "pixell/utils.py:split_esc"]}
{"id": "C120", "title": "Prime factors", "statement": "primes gives the prime factors of a positive number in ascending order, as often as they divide it: their product is the number, and every ascending list of primes is what primes gives for its product.", "quantifier": "every positive whole number", "why_tests_cant": "all numbers, not only small ones", "anchors": ["pixell/utils.py:primes"]}
{"id": "C121", "title": "All combinations", "statement": "count_variable_basis gives every list of digits below the given bases exactly once, in ascending order, and list_combination_iter every choice of one value from each of the given lists; lists of what they yield hold the same.", "quantifier": "every list of bases and every list of lists", "why_tests_cant": "all numbers and sizes of lists", "anchors": ["pixell/utils.py:count_variable_basis", "pixell/utils.py:list_combination_iter"]}
{"id": "C122", "title": "Distributions of sums", "statement": "distpow gives for every k the probability that N independent draws from the distribution have the sum k, with an entry for every possible sum, whatever N; the total is the N-th power of the total of the distribution. dicedist gives the share of the throws of N dice with D faces that have the sum k.", "quantifier": "every distribution that is not empty, every N, D and k", "why_tests_cant": "all lengths and powers, exact real numbers", "anchors": ["pixell/utils.py:distpow", "pixell/utils.py:dicedist"]}
{"id": "C123", "title": "Building geometries", "statement": "geometry with the corners of a patch and a resolution gives pixels of that size that go from the first corner towards the second and end at the second to within a pixel; with a shape both corners are the corners of the map; with a centre, a resolution and a shape the centre is the centre of the map. The patch is shifted by at most half a pixel, so that the reference point is in the middle of a pixel and maps of the same resolution have common pixels; with force=True it is not shifted and the corners are matched exactly.", "quantifier": "every plain, plate carree, equal area and mercator patch at most a turn across, in degrees or radians, every resolution, shape and reference point", "why_tests_cant": "continuous positions and resolutions, all shapes", "anchors": ["pixell/enmap.py:geometry", "pixell/wcsutils.py:build", "pixell/wcsutils.py:validate", "pixell/wcsutils.py:finalize", "pixell/wcsutils.py:car", "pixell/wcsutils.py:cea", "pixell/wcsutils.py:mer", "pixell/wcsutils.py:plain"]}
{"id": "C124", "title": "Edges of bins", "statement": "infer_bin_edges gives the only list of edges with every center in the middle between its edges and the two reference bins equally wide; edges of equidistant centers are equidistant.", "quantifier": "every list of centers and every reference bin that has a next one", "why_tests_cant": "all lengths and continuous centers", "anchors": ["pixell/utils.py:infer_bin_edges"]}
{"id": "C125", "title": "Maps in HDF files", "statement": "After any history of write_hdf calls, with and without addresses, read_hdf at an address gives the map that was last written there, unless a later write replaced the whole file or a group that the address lies in; a write at an address leaves the maps at addresses outside it alone, and reading what was never written raises. Addresses avoid the names data and wcs, which the format uses itself.", "quantifier": "every history of writes to a file and every address", "why_tests_cant": "all orders and nestings of writes", "anchors": ["pixell/enmap.py:write_hdf", "pixell/enmap.py:read_hdf"]}
{"id": "C126", "title": "Boxes around positions", "statement": "neighborhood_pixboxes gives for every position a range of rows and columns that holds all pixels whose centres are within the distance from it along great circles, the columns up to whole turns, also when the circle goes over a pole. Rows are within the distance and half a pixel of the declination, columns within half a turn and, for a circle that leaves out the poles, within r/cos of the latitude nearest to a pole and half a pixel.", "quantifier": "every plate carree geometry with a whole number of pixels around the sky, every position and every positive distance", "why_tests_cant": "continuous positions and distances, all resolutions", "anchors": ["pixell/enmap.py:neighborhood_pixboxes", "pixell/enmap.py:skybox2pixbox"]}
{"id": "C127", "title": "Distances from polygons", "statement": "poly_edge_dist gives the distance along great circles from a point to the nearest of all points on the edges of a polygon, where each vertex is joined with the next and the last with the first by the shorter arc; it is zero just for the points on an edge. Repeated vertices are allowed.", "quantifier": "every point and every polygon whose neighbouring vertices are not opposite points of the sphere", "why_tests_cant": "continuous positions and any number of vertices", "anchors": ["pixell/utils.py:poly_edge_dist"]}
{"id": "C128", "title": "Splitting selections", "statement": "split_slice cuts a numpy selection into one part for each group of axes: put together the parts are the selection with the ellipsis spelled out as full slices, and the first i parts stand for the axes of the first i groups, or for all that are selected if those are fewer. Selections of more axes than there are raise.", "quantifier": "every selection with at most one ellipsis whose entries are integers, slices, new axes, nonempty lists of indices and masks along one axis, and every list of group sizes", "why_tests_cant": "all lengths and mixtures of entries", "anchors": ["pixell/utils.py:split_slice", "pixell/utils.py:split_slice_simple", "pixell/utils.py:listsplit", "pixell/utils.py:cumsplit"]}
{"id": "C129", "title": "Conditional distributions", "statement": "build_conditional gives for Gaussian variables with a covariance matrix, some of which are known, a matrix A and a matrix cov such that what A applied to the known variables leaves of the unknown ones is uncorrelated with every known variable and has the covariance cov; rows and columns are in ascending order of the variables. Matrices whose diagonal is zero give zeros.", "quantifier": "every number of variables, every covariance matrix with an inverse and every choice of known variables", "why_tests_cant": "all sizes, subsets and continuous entries", "anchors": ["pixell/utils.py:build_conditional"]}
{"id": "C130", "title": "Powers of matrices", "statement": "eigpow with a whole positive exponent gives the repeated product of a symmetric matrix with itself. For matrices without negative eigenvalues the positive powers add up and the exponent 1/k gives a symmetric k-th root. If no eigenvalue is negligible by the limits, the exponent -1 gives the inverse, and all real powers of positive matrices add up, so opposite powers are inverses. Matrices stacked along one axis are treated one by one.", "quantifier": "every symmetric matrix of every size, every exponent and every pair of limits", "why_tests_cant": "all sizes and continuous entries and exponents", "anchors": ["pixell/utils.py:eigpow", "pixell/utils.py:is_int_valued"]}
{"id": "C131", "title": "Elliptical beams", "statement": "compress_beam gives the coefficients of the quadratic form whose widths are the given ones along and across the given direction. expand_beam gives the widths, the larger first, and the direction of the larger between 0 and half a turn, of every form that is positive, and only of those. Each undoes the other: compressing what was expanded gives the same numbers, and expanding what was compressed gives the same widths and, unless they are equal, the same direction up to half turns.", "quantifier": "every pair of widths, every direction and every set of coefficients (exact real numbers)", "why_tests_cant": "continuous widths and directions, all orders of the widths", "anchors": ["pixell/utils.py:compress_beam", "pixell/utils.py:expand_beam"]}
{"id": "C132", "title": "Principal components", "statement": "eigsort gives the nmax largest eigenvalues of a symmetric matrix (all if nmax is not given) in descending order, with orthonormal eigenvectors, and none that is left out is larger than one that is given. With merged, for a matrix without negative eigenvalues, the columns of Q give QQ' = A if all are kept; otherwise QQ' never explains more than A, and what it leaves unexplained is in no direction more than any of the eigenvalues that are kept.", "quantifier": "every symmetric matrix of every size, every nmax that is not negative, and every order in which the sort lists equal eigenvalues", "why_tests_cant": "all sizes and continuous entries", "anchors": ["pixell/utils.py:eigsort"]}
{"id": "C133", "title": "Correlation matrices", "statement": "cov2corr gives the standard deviations and a matrix with ones on its diagonal, which corr2cov puts together to the covariance again, exactly if all variances are positive; and the other way round. Correlations of a covariance matrix are symmetric and between -1 and 1, and do not change with the units of the variables, while the standard deviations do so in proportion.", "quantifier": "every number of variables, every matrix and every change of units", "why_tests_cant": "all sizes and continuous entries", "anchors": ["pixell/utils.py:cov2corr", "pixell/utils.py:corr2cov"]}
{"id": "C134", "title": "Means of blocks", "statement": "slice_downgrade takes the part of an array that the start and stop of a slice select, in the direction of its step, and replaces each block of as many samples as the step by its mean, a shorter last block by its own; the means times the numbers of samples add up to the total. block_mean_filter replaces every sample by the mean of the samples in its block.", "quantifier": "every array, slice and width", "why_tests_cant": "all lengths, bounds, directions and widths", "anchors": ["pixell/utils.py:slice_downgrade", "pixell/utils.py:block_mean_filter"]}
{"id": "C135", "title": "Broadcasting with axes put anywhere", "statement": "broadcast_shape returns, for every list of shapes and every place 'at' for missing axes that all of them have, the shape whose length along each axis is the only length other than 1 that any of the shapes has there, and raises exactly when there is no such shape. The order of the shapes does not matter. broadcast_arrays gives each array that shape between its npre leading and npost trailing axes, passes None through, and shows at every index the element with added axes left out and index 0 along axes of length 1.", "quantifier": "every list of arrays and Nones with any number of axes, any npre and npost, any place from the front or from the back", "why_tests_cant": "tests broadcast two or three small shapes; the rule must hold for any number of axes and arrays and for every index", "anchors": ["pixell/utils.py:broadcast_shape", "pixell/utils.py:broadcast_arrays"]}
{"id": "C136", "title": "Triangle waves", "statement": "triangle_wave(x, period) is, for every x and every period other than 0, the angle of the sine of that period over a quarter turn: straight lines of slope 4/period up around whole periods and down around half periods, between -1 and 1, odd, repeating after a period and changing sign after half of one.", "quantifier": "every real x, every non-zero period, also negative ones", "why_tests_cant": "the branches meet at quarter periods and the remainder jumps at whole ones; tests sample a few points of one period", "anchors": ["pixell/utils.py:triangle_wave"]}
{"id": "C137", "title": "Overlap of two discs", "statement": "disk_overlap(d, R) is the area of the two circular segments that the common chord cuts off, for every distance; it is the whole disc at distance 0, nothing from 2R on, strictly smaller for larger distances in between, and shrinks at the rate of the length of the common chord.", "quantifier": "every radius above 0 and every distance from 0", "why_tests_cant": "tests compare a few distances with numbers; the formula must be the area at every distance", "anchors": ["pixell/utils.py:disk_overlap"]}
{"id": "C138", "title": "Sweeps of a scan", "statement": "find_sweeps returns intervals that follow each other without gaps or empty ones from the first sample to the end. Every sweep but one that starts at 0 starts at a sample near an end of the range (farther than 1-tol of half the width from the middle) that is farthest from the middle in its stretch of such samples; every such stretch holds a start, and only one besides 0. There is an answer for every scan that moves and every positive tolerance, and an exception for a scan that stands still.", "quantifier": "every list of samples, every tolerance, every choice among equal extremes", "why_tests_cant": "turnarounds come in any number, length and shape, and may touch either end of the scan or tie; tests use one smooth zigzag", "anchors": ["pixell/utils.py:find_sweeps", "pixell/utils.py:minmax"]}
{"id": "C139", "title": "Resizing arrays", "statement": "resize_array(arr, size, axis, val) returns an array with as many axes; the axes named, counted from either end, have the sizes given (one size serves all axes, and the last counts if an axis is named twice), the others keep their lengths; old elements stay where they were and all new ones are val. Enlarging and cutting back gives the array back. More sizes than axes must not be taken without axis.", "quantifier": "arrays with any number of axes, any sizes and axes, every index", "why_tests_cant": "growing, shrinking and mixed cases, on every subset of axes, cannot be listed", "anchors": ["pixell/utils.py:resize_array"]}
{"id": "C140", "title": "Sums by label", "statement": "sum_by_id(a, ids) returns one entry for each label from 0 to the largest one, each the sum of the values with that label (0 for labels that do not occur), and the entries add up to the total of the values.", "quantifier": "every list of values and of non-negative labels", "why_tests_cant": "labels repeat, skip and come in any order; tests use a handful", "anchors": ["pixell/utils.py:sum_by_id"]}
{"id": "C141", "title": "Transposed indices and picking items", "statement": "transpose_inds sends the flat index of element (row,col) to that of (col,row) of the transpose, stays in range, and is undone by the call with rows and columns swapped. only_inds returns the items named, in that order; without_inds the others, in their own order; together they hold every item once if none is named twice.", "quantifier": "all numbers of rows and columns, all lists, all index lists with negative indices", "why_tests_cant": "a statement about every index of every shape", "anchors": ["pixell/utils.py:transpose_inds", "pixell/utils.py:without_inds", "pixell/utils.py:only_inds"]}
{"id": "C142", "title": "Items to be spread over processing cells are all handed out and cells stay near the limit", "statement": "For every number of items and every limit of at least 1 the cell sizes that are returned are positive and add up to the number of items, so none is lost or processed twice. All cells have the same size except perhaps the last, and the last is not small: it holds at least half and at most one and a half times the others. No cell is larger than the limit.", "quantifier": "all numbers of items N and all limits nmax >= 1", "why_tests_cant": "The sizes come from rounded divisions; whether a remainder is lost, or a merged last cell exceeds the limit, depends on the residues of both numbers.", "anchors": ["pixell/reproject.py:825-836 distribute"]}
{"id": "C143", "title": "Restricting the resolution of a HEALPix map gives an allowed resolution that is nearest in the wanted direction", "statement": "The restricted resolution is at least 1. With no restriction it is the wanted one rounded in the wanted direction. With multiples of 32 it is 32 times the rounded quotient, or 1 if that is 0. With powers of two it is 2 to the rounded logarithm, so it is at least the wanted one when rounding up and at most when rounding down. With multiples of 32 and rounding up, the result is at least the wanted resolution.", "quantifier": "all real wanted resolutions, the three modes and the three roundings", "why_tests_cant": "Resolutions are real numbers and the result depends on logarithms and on rounding at halves; samples do not cover the boundaries.", "anchors": ["pixell/reproject.py:388-417 restrict_nside"]}
{"id": "C144", "title": "The colour of a value is the colour table interpolated linearly, whichever driver computes it", "statement": "For every table of increasing values and every value, each driver gives, for each channel, the straight line between neighbouring table entries, rounded to a whole shade from 0 to 255; beyond the ends it gives the end colours and at a table value exactly its colour. Values that are not numbers are fully transparent. The two drivers give the same colours.", "quantifier": "all tables with at least two increasing values and shades in 0..255, and all real values or nan", "why_tests_cant": "The table and the value are arbitrary; searches from the left and from the right differ at equality, and clipped fractions matter only outside the table.", "anchors": ["pixell/colorize.py:116-139 colorize_scalar_fortran, colorize_scalar_python", "fortran/colorize.f90:1-31 remap"]}
{"id": "C145", "title": "Each cell of the search grid lists exactly the sources within reach of it", "statement": "For every box, resolution, wrapping and list of sources the table of cells is built without running out of room. A source is listed in a cell if and only if some point of the cell is within the resolution of the source, or of one of its wrapped images, along both axes. The sources are listed in order, each once for every image that is within reach, so never twice without wrapping. Every point of the box is in exactly one cell.", "quantifier": "all boxes with low end below high end, positive resolutions, all wrapping periods and all finite lists of positions", "why_tests_cant": "Positions are real numbers and the cell limits are found by truncation towards zero, which is a different rounding on the two sides of the box; a source missed in one cell shows up as a faint edge only.", "anchors": ["pixell/pointsrcs.py:390-445 build_src_cells, build_src_cells_helper"]}
{"id": "C146", "title": "Cutting a map into cells and putting it together again loses only incomplete cells", "statement": "For every map and cell size, cell (a,b) holds the rectangle of the map that starts at a times the height and b times the width; all of it is inside the map. Putting cells together places every pixel of every cell where it came from. Doing both gives the map truncated to whole cells.", "quantifier": "all map shapes, all positive cell sizes, maps of any type", "why_tests_cant": "The functions are a reshape and a swap of axes; the swap only shows for cells that are not square and grids that are not square, and the truncation for shapes that do not divide.", "anchors": ["pixell/pointsrcs.py:447-461 cellify, uncellify"]}
{"id": "C147", "title": "Matching of two source catalogues by position finds the closest source within the tolerance", "statement": "For every two catalogues, tolerance and search margin of at least one: a source of the first catalogue is matched, and only once, if and only if some source of the second is within the tolerance on the sky; the one it is matched with is closest to it among all sources of the second catalogue, not only among those the tree search returns. The result is always an array with two columns.", "quantifier": "all finite catalogues of positions, tolerances >= 0, margins >= 1, and every order in which the tree may return sources", "why_tests_cant": "The tree works with straight distances and the tolerance is an angle; a closest source missed by the search depends on the geometry, on ties and on the order of the tree.", "anchors": ["pixell/pointsrcs.py:465-488 crossmatch", "pixell/utils.py:1804-1860 ang2rect, vec_angdist"]}
{"id": "C148", "title": "Timing statistics count every block once, with its own time, whatever fails or nests", "statement": "For every program with timed blocks, nested in any way, that may fail and recover: after it, the number recorded for a name is the number of blocks of that name that ended, normally or by an exception, the total is the sum of their times and the last time is that of the one which ended last; names of no block are absent. Times are measured on the clock given to the block. Timing changes neither whether the program fails nor its clocks. A block never takes longer than one it is in. Printing always has numbers to print.", "quantifier": "all programs built of work, failure, recovery, sequence, mark, show and add, all clocks and names", "why_tests_cant": "Programs nest without bound and may fail anywhere; the statistics are accumulated over the whole history.", "anchors": ["pixell/bench.py:53-95 Bench"]}
{"id": "C149", "title": "Tiles that lie next to each other are put together to the map they were cut from", "statement": "For every large map and every arrangement of tiles of it in rows, where the tiles of a row lie side by side between the same lines and the rows lie on top of each other with equal total widths, the combined map holds the pixels of the large map, has the total height and width, and lies where the first tile does. Tiles in a row with different heights, or rows with different widths, raise an error.", "quantifier": "all maps of any pixel type, all numbers, sizes and cuts of tiles; cuts of different rows need not agree", "why_tests_cant": "Which tile a pixel comes from depends on all sizes; a wrong order of axes shows only for unequal tiles.", "anchors": ["pixell/enmap.py:2530-2542 tile_maps"]}
{"id": "C150", "title": "Centring a spectrum puts frequencies in order and can be undone", "statement": "For maps of every shape, even or odd, fftshift puts the value of frequency k of each axis at index k plus half the length rounded down, so frequencies rise along the axis; ifftshift undoes it and the other way round. The map of the caller is changed only when that is asked for.", "quantifier": "all shapes, all maps, both settings of inplace", "why_tests_cant": "Even and odd lengths behave differently, and the two shifts agree for even lengths, so that tests on those cannot tell them apart.", "anchors": ["pixell/enmap.py:3096-3104 fftshift, ifftshift"]}
{"id": "C151", "title": "The position of the extreme value is that of the first largest or smallest pixel of each component", "statement": "For every map with at least one pixel and any number of components, the position given for a component lies in the map, its value is at least (or at most, for argmin) every value of the component, and strictly beyond all values before it in row-major order. If the component has nan the position is that of the first nan.", "quantifier": "all shapes, all numbers of components, all values or nan", "why_tests_cant": "The position depends on all values and on ties.", "anchors": ["pixell/enmap.py:796-812 argmax, argmin, _arghelper"]}
{"id": "C152", "title": "The basis of sines and cosines holds those of all multiples", "statement": "For every x and every number of functions, the entries are sin x, cos x, sin 2x, cos 2x, and so on: entry i is the sine (i even) or cosine (i odd) of x times one more than i divided by two.", "quantifier": "all real x, all lengths", "why_tests_cant": "The entries are built by a recurrence from earlier ones; an error in it shows only from some entry on.", "anchors": ["pixell/utils.py:2758-2768 build_cossin"]}
{"id": "C153", "title": "Zipping iterators to the end of the row asks all of them equally often", "statement": "For every non-empty list of iterators the rows are those of zip, as many as the shortest iterator has items, and every iterator has been asked exactly once more than there are rows, whether it comes before or after the shortest; so all can clean up. It ends for every number of iterators.", "quantifier": "all numbers and lengths of finite iterators", "why_tests_cant": "What is left in the iterators depends on all lengths and on the place of the shortest.", "anchors": ["pixell/utils.py:3578-3592 zip2"]}
{"id": "C154", "title": "The number of digits of a number", "statement": "For every whole number the result is the number of its decimal digits.", "quantifier": "all natural numbers", "why_tests_cant": "Numbers just below and at powers of ten are where the logarithm and floor matter, at every size.", "anchors": ["pixell/utils.py:2736-2738 ndigit"]}
{"id": "C155", "title": "A regularized beam keeps the values above the cut and gives all beams the same tail", "statement": "For every beam that starts above the cut (largest value times cutoff) and falls below it: the result has the length asked for, is the beam itself up to the first value not above the cut, starts there at the cut, stays positive and never rises from there on, and the ratio of two such beams is constant where both are replaced. It exists for every length asked for.", "quantifier": "all beams, cutoffs between 0 and 1, lengths, pairs of beams", "why_tests_cant": "It must hold for every beam and length, and the ratio for every pair of beams and pair of multipoles.", "anchors": ["pixell/utils.py:1053-1080 regularize_beam"]}
{"id": "C156", "title": "An angle is in a range if any of its turns is", "statement": "For every angle, range and period the answer is yes just if some angle that differs by whole periods lies in the half-open range, also for empty ranges and ranges longer than a period.", "quantifier": "all rational angles, ranges and positive periods", "why_tests_cant": "Angles any number of turns away and ranges of any length, at the ends.", "anchors": ["pixell/utils.py:1136-1138 between_angles"]}
{"id": "C157", "title": "Numbers with a given fraction", "statement": "For every number, offset and tolerance the answer is yes just if the number less the offset is closer than the tolerance to some whole number.", "quantifier": "all rational numbers, offsets, tolerances", "why_tests_cant": "The nearest whole number may be on either side, at any size and sign.", "anchors": ["pixell/utils.py:1140-1144 hasoff"]}
{"id": "C158", "title": "Compatible pixelisations have the same pixel centres", "statement": "For every two wcs the answer is yes just if they are of the same kind and every pixel centre of the first is, within the tolerance along each axis, at a pixel centre of the second.", "quantifier": "all linear parts of wcs of two axes, all tolerances", "why_tests_cant": "It is about all pixels of an unbounded grid.", "anchors": ["pixell/wcsutils.py:145-163 is_compatible"]}
{"id": "C159", "title": "Flattening the first or last axes", "statement": "Flattening the first (or last) n axes merges just those into one and leaves every element at its place in memory. A negative n leaves that many axes instead.", "quantifier": "all shapes and numbers of axes", "why_tests_cant": "All numbers and lengths of axes, and all indices.", "anchors": ["pixell/utils.py:1122-1134 preflat, postflat"]}
{"id": "C160", "title": "Giving an array a wanted number of axes", "statement": "For every shape and every wanted number of axes: with more wanted, axes of length one are put in at the given place, counted from the front or back; with fewer, the axis at the given place and those after it are merged until the number is right, every element keeping its place in memory.", "quantifier": "all shapes, numbers of axes and places", "why_tests_cant": "All numbers and lengths of axes, both ways of counting, and all indices.", "anchors": ["pixell/utils.py:1111-1120 to_Nd"]}
{"id": "C161", "title": "Removing a slope matches up the ends", "statement": "What is removed from a row is a straight line, and afterwards the averages of the first and last w samples are equal.", "quantifier": "all rows and widths", "why_tests_cant": "It is about every row and width.", "anchors": ["pixell/utils.py:310-319 deslope"]}
{"id": "C162", "title": "Rescaling maps the extremes to the ends of the range", "statement": "For every array and range the result has its smallest value at the start and its largest at the end of the range, and differences keep their ratios.", "quantifier": "all non-empty arrays of reals, all ranges", "why_tests_cant": "All arrays and ranges.", "anchors": ["pixell/utils.py:1925-1928 rescale"]}
{"id": "C163", "title": "Grids are evenly spaced between the ends of the box", "statement": "For every box and number of samples, the samples are evenly spaced from the start of the box; the last is the end of the box, or with endpoint=False one step short of it.", "quantifier": "all boxes, numbers of samples, indices", "why_tests_cant": "All boxes and sizes.", "anchors": ["pixell/utils.py:718-735 grid"]}
{"id": "C164", "title": "Cropping a geometry keeps just the wanted pixels", "statement": "For every geometry and pixel box, the cropped geometry has just the pixels of the box, each at the coordinates it had; given a central pixel and a size, it has that size and the pixel in the middle.", "quantifier": "all linear axes, all boxes, central pixels and sizes", "why_tests_cant": "All pixels of all boxes.", "anchors": ["pixell/enmap.py:2051-2081 crop_geometry"]}
{"id": "C165", "title": "Replacing zero strides moves no element", "statement": "For every array the address of every element is the same afterwards; strides change only for axes of length one whose stride was zero, and no such axis keeps a zero stride.", "quantifier": "all shapes, strides, item sizes and indices", "why_tests_cant": "All shapes, strides and indices.", "anchors": ["pixell/utils.py:1150-1169 fix_zero_strides"]}
{"id": "C166", "title": "Fitting a spectrum to the components of a map", "statement": "For every spectrum and map shape the result has the number of components of the map; entries of components in both are kept and others are zero; a single spectrum goes to the first component; a map without components gets the first spectrum. What is a covariance matrix stays one.", "quantifier": "all matrices of spectra, all numbers of components", "why_tests_cant": "All numbers of components on both sides, and all combinations of components.", "anchors": ["pixell/enmap.py:855-867 massage_spectrum"]}
{"id": "C167", "title": "Geometry objects act as pairs of shape and wcs", "statement": "A geometry can be made from a shape and a wcs, or from another object that has both. Its number of pixels is the product of its last two lengths, and taking away or replacing leading axes keeps the last two and the wcs.", "quantifier": "all shapes and wcs", "why_tests_cant": "All numbers of leading axes.", "anchors": ["pixell/enmap.py:300-321 Geometry"]}
{"id": "C168", "title": "Expanding a resolution to two axes", "statement": "A single resolution becomes two, the first of opposite sign; two are kept, exchanged if flip is set.", "quantifier": "all resolutions", "why_tests_cant": "All values and both orders.", "anchors": ["pixell/wcsutils.py:110-122 expand_res"]}
{"id": "C169", "title": "Limiting healpix transforms in angle keeps whole rings", "statement": "With limits on the angle, just the rings within them take part, each with its own number of pixels, first longitude and place in the map.", "quantifier": "all lists of rings, all limits", "why_tests_cant": "All ring layouts and limits.", "anchors": ["pixell/curvedsky.py:579-586 apply_minfo_theta_lim"]}
{"id": "C170", "title": "Padding a spectrum to a maximum multipole", "statement": "For every spectrum and maximum multipole the result has one value for each multipole up to it, the given ones followed by zeros.", "quantifier": "all spectra and maximum multipoles", "why_tests_cant": "All lengths.", "anchors": ["pixell/curvedsky.py:38-42 pad_spectrum"]}
{"id": "C171", "title": "Cutouts have the wanted size and lie in the map", "statement": "For every position and size, the piece cut out has just that many pixels, lies in the map, and its middle is within half a pixel of the position, unless nothing is returned.", "quantifier": "all positions, sizes, map sizes and paddings", "why_tests_cant": "Rounding at half pixels, at every position and size.", "anchors": ["pixell/reproject.py:766-795 cutout"]}
{"id": "C172", "title": "The Legendre basis holds the Legendre polynomials", "statement": "For every set of x and every number of functions, the values are those of the Legendre polynomials at the x scaled so that the smallest is -1 and the largest 1; at the largest x all are 1 and at the smallest they alternate.", "quantifier": "all lists of x, all numbers of functions", "why_tests_cant": "All degrees and points.", "anchors": ["pixell/utils.py:2747-2757 build_legendre"]}
{"id": "C173", "title": "Parsing lists of numbers and ranges", "statement": "For every list of words, each a number or a range start:stop or start:stop:step, the result is the numbers and the values of the ranges in order; a range holds just the values start, start+step, ... before stop.", "quantifier": "all lists of words of whole numbers", "why_tests_cant": "All ranges with either sign of step, and ends that do not fit the step.", "anchors": ["pixell/utils.py:2271-2286 parse_ints, parse_numbers"]}
{"id": "C174", "title": "Padding a geometry moves no pixel", "statement": "For every geometry and padding, the padded geometry has that many more pixels, and each old pixel keeps its coordinates, found behind what was put in front.", "quantifier": "all linear axes and paddings", "why_tests_cant": "All pixels and paddings.", "anchors": ["pixell/curvedsky.py:1215-1222 pad_geometry"]}
{"id": "C175", "title": "Pruned grid lines keep all that can be seen", "statement": "For every set of lines of points, pruning keeps the order of the points, leaves only finite points that are inside the area or next to one that is, keeps every step between finite points to or from an inside point, and adds no step that was not there.", "quantifier": "all lists of lines, all finite and inside tests", "why_tests_cant": "All patterns of lines that leave the area and come back.", "anchors": ["pixell/cgrid.py:24-47 prune_bad_segs"]}
{"id": "C176", "title": "Bounds hold the image and all labels", "statement": "For every set of boxes and image size, the bounds hold the image and all boxes, and no smaller bounds do.", "quantifier": "all lists of boxes, all sizes", "why_tests_cant": "All numbers and places of boxes.", "anchors": ["pixell/cgrid.py:226-229 calc_bounds"]}
{"id": "C177", "title": "Scaling of spectra and back", "statement": "For every spectrum, scaling forward multiplies by 2 pi/(l(l+1)) and scaling back gives the spectrum back.", "quantifier": "all spectra of any length, all extra powers", "why_tests_cant": "All lengths and values.", "anchors": ["pixell/powspec.py:121-126 scale_spectrum"]}
