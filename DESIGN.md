# Formal model of simonsobs/pixell — design

## Conventions

* Python/C integers are `Z` (or `nat` for lengths/indices). No overflow is modelled, unless a property is about it.
* Floating point numbers are modelled by exact rationals `Q` or, where trigonometry, square roots or logarithms are
  involved, by `R`. Rounding error is outside the model everywhere.
* A numpy array along one axis is a `list A`; a 2d map is a list of rows, or a flat list with a width, or (Ipl, Skyr,
  Wvf) a function of the index. Where the code treats the axes independently, the one-axis function is modelled and the
  comment says so.
* An exception, an access outside the bounds and a division by zero are values: functions that can fail return `option`.
* A loop is a structural recursion or a `fold`; a `while` loop takes explicit fuel, and a separate theorem shows that
  the stated fuel suffices (or that no fuel does: non-termination).
* Threads, MPI ranks and histories are explicit: a schedule is an arbitrary permutation, interleaving or list of
  operations and the theorem quantifies over it.
* `np.argsort` is any permutation that sorts the keys, `np.empty` is arbitrary contents.

## Files

For every area `X` there are
`XModel.v` (definitions only, each citing file and lines of /repo),
`XSpec.v` where the specification needs vocabulary of its own (small, independent of the model),
`XLemmas.v` (proofs) and
`XProps.v` (the theorems of MANIFEST.json, `Print Assumptions`, and an `Example` beside them that meets the hypotheses).

If the faithful model violates a property, the property keeps its full statement in properties.jsonl, the violation is
proved as `…_refuted` with a concrete witness, and the true part is proved under an explicit guard as `…_partial`.
Guarded theorems whose guard is part of the English property carry no suffix. `…_counterexample` theorems show that a
hypothesis of another theorem cannot be dropped.

`seeded/LOG.jsonl` records the wrong programs the theorems were tested against (one line per edit of the model, the
theorems that failed and the theorems that were added or tightened because of it).

## Plan and outcome per property

For each property: its title, what is modelled and how it is proved, and what came out (status and note as in MANIFEST.json).

* **C01 Map slicing keeps every pixel on its sky position.** `Q`-affine axes; `slice_geometry`/`__getitem__` on (crpix, cdelt, n) and lists of rows; pixel-centre identity by field arithmetic. *Outcome: proved.* getitem on an affine 2-d map; block-centre convention for |step|>1, exact pixel for +-1.
* **C02 Slicing a geometry twice equals slicing once with the composed slice.** Composition law of the same affine maps; integer algebra over slices. *Outcome: partial.* law proved when the second step is positive or the first is +-1; the unguarded law is refuted (m[::2][::-1] vs m[::-2]).
* **C03 Slice normalisation agrees with python slicing.** expand_slice and python's own slice rules as `Z` functions; equality on the guard. *Outcome: partial.* proved for in-range slices; refuted for out-of-range negative starts, negative steps starting past the end, and empty selections (negative shape).
* **C04 downgrade/upgrade are inverse and conserve the mean.** Lists of rows, block mean over `Q`, wcs part with the C01 axis. *Outcome: partial.* 2-d maps with exact values, op=mean, any offsets and inclusive flag, default oshape; guards: non-empty axes, offset 0 on axes with factor 1, at least one whole block when inclusive=False; refuted outside them.
* **C05 Extracting a pixel box returns exactly the requested pixels.** Boxes through sbox_wrap and sbox_intersect; refinement to "value at index or fill". *Outcome: partial.* boxes with step +-1 on non-empty maps, any wrap length that is 0 or at least the map size, any op; also extract by geometry and the auto period; refuted for strides above 1 starting outside the map and for zero-length maps.
* **C06 Padding and unpadding are inverse.** Pixel arrays and affine axis; round trip. *Outcome: partial.* proved for wrap=False; wrap=True proved when the upper pads are positive and no pad exceeds the map; refuted otherwise (-0 slices, fill values copied).
* **C07 autocrop never removes data.** Counts of leading/trailing blank rows and columns; every kept/removed pixel characterised. *Outcome: partial.* value/none/auto modes, any good-size function with good(l)>=l, margin>=0; an all-blank map raises (refuted).
* **C08 padslice always returns the requested box.** Lists, all box positions by case analysis on overlap. *Outcome: proved.* any integer box with start<=stop.
* **C09 Crossfaded padded tiles reproduce the map.** Tile state machine over `Q` crossfade weights; the sum over overlapping tiles is 1, and every schedule of ranks covers all tiles. *Outcome: partial.* any user function that is pointwise outside the margin, all tiles or shared between any number of ranks; guards: 2*pad<=tile shape, and tiles that do not reach round the sky; refuted for full-sky maps (edge pads wrap and count twice), wider pads, and for padtiles(imap,imap) as in the docstring (result is added to the input).
* **C10 Fourier resampling keeps every shared mode in place.** Permutation of frequency indices between layouts, coefficient type arbitrary. *Outcome: partial.* index bookkeeping of the spectra (enmap, fft and resample versions) over any coefficient type, op and normalisation; up-then-down identity proved for all sizes; frequencies kept for even common sizes and for all but the largest frequency of an odd size (refuted there: 3->6 moves frequency 1 to -2); the transforms themselves and the sub-pixel phase are not modelled.
* **C11 Recentring a cylindrical wcs does not move the sky.** `Q`-affine axes, congruence modulo 360. *Outcome: partial.* recenter_cyl_x proved; fix_wcs proved when the reference RA is a whole number of turns and refuted otherwise (crval is increased by the middle RA instead of the difference).
* **C12 Scaling a wcs keeps the map corners or reference.** `Q`-affine axes; algebraic laws of scale. *Outcome: partial.* corner=True and inverse/composition laws proved; the documented meaning of corner=False is refuted.
* **C13 1-d pixelisation covers the requested interval.** pixelize_1d over `Q`, branch by branch. *Outcome: partial.* all argument combinations of pixelize_1d over exact rationals; refuted: periodic axes finer than the closeness tolerance lose a pixel, adjust=True, pixelization with a shape, and crpix of a periodic axis.
* **C14 Pixel areas add up to the map area.** Telescoping sums over `R` with `sin`. *Outcome: partial.* exact reals, any projection given as a row-to-declination function with edges strictly monotone over the sphere; rows wholly beyond a pole give 0/0 (refuted).
* **C15 Polarisation rotation is a group action.** `R` trigonometry; group law. *Outcome: proved.* exact reals, any component list and spin; also queb_rotmat inverse for integer spin.
* **C16 Component grouping by spin covers each component once.** Recursion over the component list; generator as the list it yields plus how it ends. *Outcome: proved.* every non-empty spin list and n; spin_pre_helper for positive leading dimensions.
* **C17 Delayed map reads are repeatable.** State machine with an aliasing buffer; induction over read histories. *Outcome: partial.* reads that make new arrays proved for every history; reads through the shared hdu.data array proved when native and unflipped, or pairwise disjoint, and refuted otherwise (second read byteswapped or sign-flipped).
* **C18 mask2range lists exactly the true runs.** Lists; induction with a run invariant. *Outcome: proved.* every mask; also shows that starts and stops pair up.
* **C19 Range set operations are set operations.** Sets of integers as the meaning of range lists; any sorting permutation. *Outcome: partial.* union, normalize, cut and sub proved for any tie order of argsort; range_sub refuted for an empty input range inside a and for an empty a (IndexError); guard: ranges of a non-empty, and no empty b-range at the start of another b-range.
* **C20 Slice boxes behave like index sequences.** Boxes as index sequences; `Z` division arithmetic. *Outcome: partial.* size/fix/flip/intersect/div proved on well-formed boxes; intersect with wrap proved for boxes up to one period and refuted beyond; mul proved for positive-step a and refuted for negative; wrap (any number of axes) proved for step +-1 and refuted for larger steps.
* **C21 Work splitting is a balanced partition.** Invariant over the greedy loop; fuel shown sufficient. *Outcome: partial.* equal_split, greedy_split_simple and greedy_split with summed work and max cost proved total, partitioning and balanced; greedy_split with arbitrary functions proved to partition whenever it returns; greedy_split with its default functions refuted (raises for every n>=2).
* **C22 Index lookups find the value they claim.** Sorted-search specification for any argsort permutation. *Outcome: partial.* find, find_any, nearest_ind, common_inds, inverse_order proved for every argsort result; contains and complement_inds proved for non-empty vals/inds; refuted (raise) for empty vals in contains and find_any, empty python list in complement_inds, and find with default on an empty array.
* **C23 Angle rewinding and unwinding.** `Q` with floor; induction along the axis for unwind. *Outcome: partial.* rewind and unwind (both modes, with and without nan masking) proved over exact rationals along one axis; fast_rewind proved for [ref,ref+p) and its use as a [0,p) rewind refuted.
* **C24 Binning covers every multipole once.** Bin edges as integer lists, exact means over `Q`; non-termination shown for all fuel. *Outcome: partial.* linbin, bin_data, bin_expand proved along one axis; expbin proved over any integer edge array the float line 2505 could produce and refuted for termination (expbin(5) loops forever); linbin with more bins than points gives empty bins, and bsize overshoots n: refuted; bins2edges refuted.
* **C25 Block reduction and expansion.** Lists of blocks; induction on the number of blocks. *Outcome: partial.* any element type and op along one axis, inclusive or not; proved for bsize>=2 and 0<=off<=n (and at least one whole block when inclusive=False); refuted for bsize=1 with an offset, offsets past the end, and inclusive=False without a whole block; op='linear' not modelled.
* **C26 nditer visits every index exactly once in row-major order.** Generator unrolled as an odometer; equals the row-major enumeration. *Outcome: partial.* any shape and set of distinct axes with positive lengths; a zero-length axis is refuted (yields an index tuple).
* **C27 Sexagesimal conversion round-trips.** `Q` arithmetic, rounding by floor. *Outcome: partial.* round trip proved for every rational; sign in the formatted text proved outside (-1,0) and refuted inside.
* **C28 CG keeps its residual honest and resumes exactly.** Abstract inner-product space (section variables with laws) as state machine; invariant over steps. *Outcome: proved.* Residual, termination (without a preconditioner), error bookkeeping, save/load, conjugacy and Minres invariants in exact real arithmetic; a step that would divide by zero has no successor state. The preconditioner is assumed to return a new vector (M returning its argument aliases p and r in the code)..
* **C29 cache_get caches.** State machine over call histories. *Outcome: partial.* every history proved for a cache that starts non-empty; refuted for an empty dict, which is never filled.
* **C30 Labelling groups equal values and only those.** Lists of rows, any sort order; equivalence classes. *Outcome: partial.* find_equal_groups (numeric rows, any tolerance and any sorting order), find_equal_groups_fast and exact label_unique are proved in full. With tolerances label_unique's labels need not be contiguous (C30_label_refuted). label_multi gives equal tuples equal labels, but distinct tuples can collide (C30_label_multi_refuted); distinctness is proved when no column has more distinct values than the previous one..
* **C31 Concatenate/split bookkeeping round-trips.** Offsets and concatenation of lists; ranks as list of lists. *Outcome: partial.* uncat and allgatherv (first axis, at least one non-empty rank) proved in full; all-empty allgatherv returns each rank's own array (refuted). multimap.maps[i] is proved for non-negative i, reading and writing; negative i is refuted..
* **C32 Point in polygon.** Crossing numbers over `Q` against a separate parity specification. *Outcome: partial.* Proved for every polygon, convex or not, and every point not level with a corner and not on a line through two corners. For points level with a corner the answer can be wrong both ways (refuted)..
* **C33 nearest_product.** Search over integer exponents; soundness and maximality. *Outcome: partial.* 'above' proved for factors >= 2; 'below' proved sound, its maximality refuted (10,[2,3] gives 8); a factor 1 refuted; n=1 below gives None.
* **C34 Partial flatten/expand and array reshaping round-trip.** Strides and index arithmetic over arbitrary shapes. *Outcome: partial.* moveaxes, partial_flatten and partial_expand proved for every shape, list of distinct axes (negative ones too) and position, as long as the kept axes are not of length zero (the code raises then) and at least one axis is kept; preflat/postflat proved for n>=0 and refuted for the documented negative n.
* **C35 Tiles partition the map.** `Z` arithmetic of tile boundaries. *Outcome: proved.* every map and tile shape, including partial edge tiles.
* **C36 Tile map round-trips.** Association of tiles to flat buffers; read/write laws. *Outcome: proved.* every tiled map (any list of active tiles, any order): views, item assignment, from_tiles, to_enmap and the full round trip.
* **C37 with_tiles activates the requested tiles.** Lists of active tiles. *Outcome: partial.* with_tiles, union and strict, proved when numpy compares the two active lists as intended; a map without active tiles asked for one tile is returned unchanged (refuted) and numpy 1.25 or later raises on lists of different lengths (refuted).
* **C38 Arithmetic on tile maps is arithmetic on full maps.** Pointwise arithmetic per tile. *Outcome: partial.* tile-level result proved for every op; equal to full-map arithmetic when op x 0 = x (add, subtract); refuted for multiplication, where tiles active only in the first map keep their value. In-place forms and insert proved. wcs equality is not modelled (the code's check ignores it as well).
* **C39 MPI redistribution moves each tile to its owner.** Per-rank message buffers, Alltoallv as concatenation in rank order. *Outcome: partial.* any number of ranks and any addition; guard: tiles common to a sender and a receiver are listed in the same order (e.g. all lists sorted); the automatic assignment gives every active tile to exactly one rank. Refuted when orders differ: tiles are swapped.
* **C40 Memory pool never hands out overlapping live buffers.** State machine with arenas; invariant over all histories. *Outcome: partial.* disjointness, alignment, containment and reuse proved for every history of alloc/reset/free over any honest allocator; steady state proved for repetitions of one non-empty cycle from a fresh pool, refuted from other states (a cycle that outgrows the capacity allocates for ever).
* **C41 alm index layout is a bijection.** Index arithmetic over `Z`. *Outcome: partial.* injectivity, range and exact cover proved for triangular (any mmax<=lmax, any stride) and rectangular layouts; lmax recovered from nalm for stride 1 (counts that fit no lmax are refused); refuted for strided layouts, where alm_info(nalm=...) fails on its own element count.
* **C42 alm2cl does not depend on threading and equals its formula.** Interleavings of individual memory operations of threads; sums over `R`. *Outcome: partial.* formula proved for every assignment of m to threads and every interleaving of the individual reads and writes, any stride-1 layout, exact arithmetic; the address cache of the stack version proved transparent when equal addresses mean equal contents and refuted for views with different strides of one buffer.
* **C43 alm reordering is a permutation.** Permutation of indices. *Outcome: partial.* any layout with stride 1 and any stack of alms, element type arbitrary; refuted for stride 2 (the C code ignores the stride).
* **C44 lmul and lmatmul touch only their own multipoles.** Loops in any iteration order. *Outcome: partial.* lmul and double-precision lmatmul proved for every filter length, row aliasing (in place) and iteration order; single-precision lmatmul proved for filters no longer than lmax and refuted beyond (writes outside the array); refuted for strided layouts; broadcasting of leading dimensions not modelled.
* **C45 transfer_alm copies the common modes.** Index arithmetic, loops in any order. *Outcome: proved.* any pair of layouts (any strides) with mmax<=lmax, any op; also the C copy loops in any iteration order; one member of the stack at a time.
* **C46 Random alms agree across resolutions.** Random stream as a function of position. *Outcome: partial.* proved for one component, any generator, blocking and pair of lmax; refuted for two components (the second component's draws start at an lmax-dependent offset); multi_pow is an input.
* **C47 HEALPix ring bookkeeping.** `Z` with `Z.sqrt`; bounds of C ints explicit. *Outcome: partial.* rings tile, ravel/unravel and the exact edge neighbours (with symmetry) proved for every nside up to 32767 and any square root off by at most one beyond 2^50; beyond that ncap overflows a C int (refuted); the python ring table proved for every nside and choice of rings.
* **C48 General-position transforms visit every map row.** Block loop with fuel. *Outcome: partial.* proved for every position function, mask and block size unless the block size divides ny-1; in that case (1, 1001, 2001, ... rows with the default block size) proved that the last row is never visited.
* **C49 Transform buffers round-trip.** Index maps between buffer and map. *Outcome: proved.* pixels, zeros outside, sky positions and exact round trip for every size, flip and non-negative padding, affine wcs.
* **C50 Iterative map2alm error recurrence.** Additive groups; induction on the number of iterations. *Outcome: proved.* any additive groups and additive operators, any number of steps, including the call counts the docstring promises; assumes the operators return new arrays, as those of map2alm do (counterexample given for an operator that returns its argument).
* **C51 Distance transforms never invent distances.** Work-list algorithm over an arbitrary graph, parameterised by the queue. *Outcome: proved.* bubble (flat and healpix), heap and simple methods, any distance function, cut-off and points inside the map; also: every connected pixel is reached, and the distance is exact wherever the nearest point's region connects to a pixel of its own. Limits shown by counterexamples: shared start pixels and regions narrower than a pixel. The cellgrid method is not modelled.
* **C52 The priority queue pops the smallest.** Heap array with index arithmetic; invariant over histories. *Outcome: partial.* removal of exactly the returned entry proved for every history; minimality proved while no pop has left an odd number of entries, refuted in general (the last child is skipped when sifting down).
* **C53 find_edges lists exactly the edge pixels.** Neighbour definition and scan. *Outcome: proved.* flat masks and labels of every size from 1x1 (as a set: corners are listed twice), healpix masks and labels once each for every nside up to 32767.
* **C54 Source painting reaches every pixel in range once.** `Z` cells; schedules as permutations; adjointness by exchange of sums. *Outcome: partial.* painting, at most once per pixel, independence of the schedule and adjointness proved for all inputs; coverage of the box proved when it lies in the map, the map is a whole number of cells, or the box is longer than the map, and refuted for a box crossing the edge of a map with a partial last cell.
* **C55 The profile cut-off does not depend on how many objects are simulated.** `Q` profiles; scan loops. *Outcome: partial.* without the table: exact; with the table: same or one sample short for normalized non-increasing profiles; equality refuted (one sample short, read before the start of the profile, profile not normalized).
* **C56 Radial binning puts each pixel in its bin.** Search loops; membership. *Outcome: partial.* all bins but the last (general edges), all bins while distances stay below the number of bins (equal bins); the last general bin is never filled, and distances beyond nbin are dropped in equal mode, both refuted.
* **C57 Symmetric-matrix compression round-trips.** Index bijection between packed and full matrices. *Outcome: proved.* every size, scheme and number of further axes, for the default axes; counterexamples given for combined=True (off-diagonal elements come back doubled) and for axes=[1,2] (wrong axes indexed).
* **C58 Haar wavelets reconstruct exactly.** Lists of levels; exact pixel arithmetic. *Outcome: proved.* every shape, number of levels and offset choice, with exact pixel arithmetic; also the zero mean of the details.
* **C59 Wavelet filters form a partition of unity.** `R` filters; telescoping squares. *Outcome: partial.* Butterworth, ButterTrim and DigitalButterTrim proved in full; CosineNeedlet only below its lmax, and refuted at lmax, where all needlets vanish.
* **C60 Boost and deboost are inverse.** `R` algebra and trigonometry. *Outcome: proved.* all |beta|<1 and |z|<=1, exact reals; also the composition law for two boosts.
* **C61 Full-sky y-doubling.** Index map of the doubled array. *Outcome: partial.* the contents of the doubled map are proved for every map; the documented boundary condition is refuted: the second copy is mirrored in x instead of y.
* **C62 Row rolling is a rotation.** Any order of the parallel loop. *Outcome: proved.* every size, every order of the parallel loop, offsets up to one turn; counterexample beyond one turn.
* **C63 Contour finding marks level crossings.** Bin search and neighbours. *Outcome: partial.* every pixel with both a right and a lower neighbour, including which level is reported and nan pixels; refuted on the last row and column, which are never marked.
* **C64 unmask undoes mask indexing.** Lists. *Outcome: proved.* last axis, any element type.
* **C65 listsplit splits like str.split.** Lists; uniqueness by induction. *Outcome: proved.* integer elements.
* **C66 Time scale conversions are inverse.** `Q` arithmetic. *Outcome: proved.* exact arithmetic; float rounding not modelled.
* **C67 Reflected filling and cumulative splitting.** Lists, `Z` mod. *Outcome: partial.* repeat_filler proved for n>0 and refuted (raises) for n=0; cumsplit proved for non-negative sizes.
* **C68 Multimap elements are the maps put in.** Offsets into the shared buffer. *Outcome: partial.* proved for indices 0..n-1; negative indices refuted: they return the pixels of the following map, or fail.
* **C69 Planck spectra and modulation units.** `R` with exp/ln; derivative by Coq's Reals. *Outcome: partial.* Planck functions, plain modulation and rotation in full; the round trip between T and linearized units when T0 is utils.T_cmb, refuted for any other T0 (utils.T_cmb is subtracted instead of T0).
* **C70 Rewinding pixel positions.** `R` case analysis. *Outcome: partial.* whole periods and the one-period range [period/2, 3 period/2) proved; the stated range 0:period refuted.
* **C71 Sky boxes become pixel ranges consistently.** `Q`-affine axis, rounding by floor; chain of boxes by induction; submap through the extract model. *Outcome: partial.* touching, capping and submap's pixels proved for both directions (round/floor/ceil); edge-aligned boxes and inclusive/exclusive proved for boxes running with the pixel index, refuted for reversed ones (off by one pixel); exclusive refuted on boxes within a pixel (negative shape).
* **C72 Full-sky and band geometries.** `Q` arithmetic. *Outcome: partial.* fullsky_geometry in full; band_geometry: which rows are kept, to half a pixel; refuted: a symmetric cut gives asymmetric rows, and the whole sky is refused or loses its last row.
* **C73 Thumbnails are centred.** `Q` arithmetic. *Outcome: partial.* every case with at least two pixels per axis; the projection of the radius is a parameter; a one-pixel shape with a radius divides by zero.
* **C74 Union and overlap of geometries.** Boxes on one pixel grid; min/max by induction over the list. *Outcome: partial.* union_geometry and map_union in full; overlap without wrapping; with wrapping it can contain pixels that only one of the geometries has, refuted.
* **C75 Interpolation transposes are the transposes.** The Fortran loops over `R` with explicit array bounds; each loop proved to be the transpose of its counterpart, for any schedule of lines and of atomic additions. *Outcome: partial.* spline_filter and interpolation proved for every order, schedule and shape with at least 2 samples per filtered axis; refuted: border=reflect fails, one-sample axes, arrays that are not C-contiguous are not filtered in place, and deriv=True with trans=True is not a transpose (and reads past the end when there are fewer leading elements than axes).
* **C76 Interpolation passes through the samples.** The recursive filter satisfies the spline's tridiagonal system, edges included, and the interpolation sum inverts it, axis by axis. *Outcome: partial.* conv, lanczos and spline order 0-1 for all borders but zero; spline order 2-5 at every pixel of cyclic and mirror arrays short enough for the exact edge sums, and at pixels away from the edges for every border and length; the edge pixels of arrays long enough that the code truncates its edge sums at 1e-15 are not covered; refuted: zero border at edge pixels, nearest border at edge pixels.
* **C77 Boundary conditions of interpolation.** The cell odometer enumerates all cells; nested sums. *Outcome: partial.* nearest, cyclic and mirror in full, and zero while the kernel lies inside the array; refuted for zero: the sum ends at the first cell outside.
* **C78 Interpolation reproduces constants and gradients.** Moments of the kernels by polynomial identities; filter of constants. *Outcome: partial.* constants for all borders but zero and gradients for conv 1 and 3 and spline 1-5; constants through the prefilter for nearest borders of any length and cyclic and mirror axes short enough for the exact edge sums; refuted: conv order 2 is accepted and gives zero.
* **C79 Interpolation derivatives.** Piecewise derivative of each kernel (Coquelicot's `is_derive`), product rule through the nested sums. *Outcome: partial.* conv 1 and 3 and spline 1, 2 and 4 at every position between the kernel's nodes; refuted: spline 3 (the default) has wrong weights, spline 5 has none, and at nodes the terms with weight 0 are dropped.
* **C80 Fourier transforms undo each other.** Discrete Fourier sums over Coquelicot's complex numbers; orthogonality of roots of unity gives both inverses, a double-sum swap the adjoints and Parseval. *Outcome: partial.* everything but irfft without n, which gives an array one shorter when the length was odd (proved), as numpy's does.
* **C81 Cosine, sine and Chebyshev transforms undo each other.** The eight FFTW definitions written as matrices; each matrix times its inverse is evaluated with one cosine-sum lemma. Chebyshev polynomials by their recursion, linked to cosines by induction. *Outcome: partial.* all eight types and the one-axis Chebyshev transforms in full; refuted: enmap.dct/idct return the map times (2ny-2)(2nx-2)/((2ny-1)(2nx-1)), dct_adjoint is not the adjoint, and chebt of an array with two axes scales rows instead of columns (its round trip still holds).
* **C82 Cyclic and fractional shifts.** A shift is a product of phases in Fourier space; rolls, additivity and trigonometric patterns follow mode by mode, derivatives by `is_derive` through finite sums. *Outcome: partial.* whole shifts, band-limited patterns, derivatives and wcs in full; shifts add up for complex arrays and for real arrays of odd size; refuted: real arrays of even size, and enmap.shift with a single offset moves the wcs along both axes.
* **C83 Fourier resampling.** The four quadrant copies of C10's model are composed with the transforms; one mode is followed from input to output index. *Outcome: partial.* patterns strictly below the highest frequency, kept samples, units and complex round trips in full; refuted: real round trips lose half of the highest frequency, odd sizes move their highest frequency h to -(h+1) (a single sample [v] becomes [v,-v]), corner=False gives a wcs that does not match the values, and enmap.resample drops imaginary parts.
* **C84 Gaussian smoothing.** A filter is a product of real gains in Fourier space; gains of waves, products of gains and Parseval's identity give the rest. *Outcome: proved.* real maps; C84_complex states what complex maps give.
* **C85 Pixel windows.** The same, with the window's gains; the averages are integrals of waves over the pixel and the hat function (Coquelicot's RInt), computed in closed form and compared with the gains. *Outcome: proved.* band-limited means strictly below the highest frequency of the map; scale at or below 1/2, where the window has zeros, is outside the claim.
* **C86 Flat-sky harmonics.** The groups of spin_helper form a chain, so the loop of rotations is a structural recursion over the stack; every rotation is undone by the opposite angle and is its own transpose's inverse. The direction of a wave is compared with arctan2 through cosines and sines. *Outcome: proved.* without normalization the round trips give the map times the number of pixels, which is stated; waves strictly below the highest frequency.
* **C87 Resampling axes of arrays.** The splices are shown equal to the index map of C83's model, axis by axis, so both functions are the same linear map; an inductive relation lists which axis each number is meant for. *Outcome: partial.* arrays with two axes; refuted: lengths that equal those of the last axes make resample_fft return its input even if other axes were named (axes=[0] with the length of axis 1), and complex arrays resampled along the last axis only lose their imaginary part.
* **C88 Block averages and repeated samples.** Block sums are re-associated by induction on the number of blocks; rounding of k and 1/k is computed exactly over Q. *Outcome: proved.* arrays with two axes; outside the claim, and stated as theorems: upsample_bin with two steps and no axes uses them in the wrong order, and resample_bin with other factors rounds them (3/4 does nothing, 2/3 halves).
* **C89 Pixel coordinates and positions determine each other.** Pixel coordinates of a direction are unique in a window one turn wide (rewind's specification); a list of angles without jumps that follows a slowly varying sequence differs from it by one constant number of turns, by induction along the row; the blocks of posmap are concatenated by induction. *Outcome: proved.* separable geometries with rows between the poles; degrees; points less than half a turn from the middle of the map, which all the map's pixels are (C89_map_near).
* **C90 The pixel a position is in.** From C89's window; witnesses for the refuted corners. *Outcome: partial.* true of positions between the centres of the first pixels and half a pixel beyond the centres of the last; refuted: contains rejects the first half of the first pixels and accepts half a pixel beyond the last ones, and on maps all the way around the sky positions in the first half of the first column get a column beyond the last, with and without corner=True.
* **C91 Pixel boxes of sky boxes.** Unwinding ten points from the first follows the straight line between the corners, by the lemma of C89. *Outcome: proved.* separable geometries; npoint=10, the default; without include_direction.
* **C92 Sky boxes of pixel boxes.** The same lemma for two points; a witness for wide boxes. *Outcome: partial.* boxes less than half a turn across, or any box with a plain wcs; refuted: the corners are unwound as if they were neighbours, so a box 200 degrees across comes out as 160 the other way.
* **C93 Fourier pixels and multipoles.** Case split at the Nyquist frequency, field arithmetic over Q. *Outcome: proved.* one axis at a time; rational pixel sizes (the factor 2 pi is part of the size).
* **C94 Projecting onto the same pixels.** From C05's extract; a witness for the shape test. *Outcome: partial.* border="constant"; refuted: with the map's own wcs and another shape the map comes back in its old shape, since the shape asked for is compared with itself.
* **C95 Directions and angular distances.** arctan2 is characterized by its cosine and sine; the sum of squares in the Vincenty formula is one; spherical triangle inequality from Cauchy-Schwarz on the parts orthogonal to the middle direction; half-angle formula for vec_angdist. *Outcome: proved.* outside the claim, and stated as a theorem: return_r=True gives the length of the projection on the xy plane instead of the vector's.
* **C96 Rotations of the sphere.** Matrices act as turns around axes, which keep inner products and add up. *Outcome: proved.* the kind argument is any sequence of three axes; one direction at a time.
* **C97 Recentring coordinates.** From C96; a witness for the centre changed in place. *Outcome: partial.* refuted: with a centre of four arrays and restore=True, recenter and decenter add to the caller's centre in place, so decenter with the same centre does not undo recenter.
* **C98 Chains of coordinate systems.** The loop is run on all pairs of systems with symbolic names for the other systems; the round trip by induction along the chain. *Outcome: proved.* the conversions to and from celestial coordinates are parameters, assumed to undo each other; strings that name systems are not parsed.
* **C99 A bunch is one dictionary with two ways in.** A heap of insertion-ordered dictionaries refines the ideal bunches (function and name list), by induction over programs. *Outcome: proved.* outside the claim, and stated as theorems: a name like keys or __x can be stored but its attribute is another thing, and del b["_dict"] empties the bunch for good.
* **C100 Bunches in files.** Written trees are encoded in insertion order, by nested induction; sorting by name is a permutation, and lookups of distinct names do not depend on order. *Outcome: proved.* values are one kind of dataset; h5py is modelled as a tree of groups; outside the claim, and stated as theorems: a name with a slash comes back as nested bunches, and writing one group of a file removes its other groups.
* **C101 Lists of bunches.** Induction on the list of bunches; truncation as floor or ceiling. *Outcome: proved.* scalars; the conversion to the first value's type cuts off fractions, which is part of the statement.
* **C102 Derivatives of maps.** A wave's transform has one nonzero element, so any filter acts on it as a number; real patterns are sums of conjugate pairs of waves; adjointness from Plancherel. *Outcome: proved.* outside the claim, and stated as a theorem: at the Nyquist frequency of an even axis the gradient is lost but the laplacian is not, so div of grad differs from laplace.
* **C103 Matching two catalogues.** Chord lengths are monotone in angles up to half a turn; invariant of the greedy loop over the sorted list of pairs. *Outcome: proved.* scipy's tree and numpy's argsort are parameters with their documented behaviour; the order of the second catalogue in mode "first" needs a tree that lists neighbours in order; outside the claim, and stated as theorems: radii above half a turn miss objects, and without that order of the tree the first object of the second catalogue is not preferred.
* **C104 Distances from a mask.** A closest pixel of a set is on the border or beside a pixel outside the set, as a step towards the other pixel comes closer; flat: squares; sphere: monotone cosine on either side of half a turn. *Outcome: proved.* the search for the closest of a list of points is a parameter with its documented behaviour, met by the brute force method; own labels are proved for flat maps and maps at most half a turn wide; outside the claim, and stated as a theorem: with rmax, labelled pixels further than rmax from the edge of their region get label 0.
* **C105 Growing, shrinking and apodizing masks.** From the distance transform by cases on the limit; the profiles are monotone with known ends. *Outcome: proved.* the same parameter; outside the claim, and stated as a theorem: a radius of 0 means no limit to the C code, so that growing by 0 empties the mask and shrinking by 0 fills it.
* **C106 Apodizing the edges of a map.** By cases on the position of the pixel in the two slices; the profiles are monotone. *Outcome: proved.* np.median is a parameter; outside the claim, and stated as theorems: an unknown fill does nothing instead of raising, and with crossfade and a width of two or more the first pixel is mixed with a pixel away from the seam, not with its neighbour across it.
* **C107 Redistributing slices of an array between tasks.** Model all tasks together with Alltoallv as slices of the senders' buffers; what is sent and what is read are the same nested concatenation in two orders, equal without crossings; invariant over the copying loop. *Outcome: partial.* proved if no two input boxes of a task and two output boxes of a task overlap crosswise, the exact condition under which both sides list the overlaps in the same order, and so always if each task has one input box or each has one output box; C107_crossing_refuted shows that otherwise data end up in the wrong place, since the sender lists its overlaps by output box first and the receiver by input box first; two-dimensional boxes without wrapping; also stated: a task without input boxes raises.
* **C108 Averages over rings.** floor(r/w) = b exactly for r in ring b; bincount as filtering the list of pixels; the total by induction on the number of rings. *Outcome: proved.* one component; the map of distances is a parameter; outside the claim, and stated as a theorem: the ring the furthest pixel lies in is left out although it has pixels.
* **C109 Weighted quantiles.** The cumulative weights are sorted, so that the count of smaller ones finds the interval; by cases on it. *Outcome: proved.* one axis; np.argsort is a parameter; outside the claim, and stated as theorems: equal values with different weights give a result that depends on the order the sort puts them in, a value without weight can still change the result, without any weight every quantile above 0 is the largest value, and an empty list raises.
* **C110 Spherical harmonics synthesis.** Real numbers; the tolerance tests pin the pole rows to a grid within tol, the misfit of a row is a convex combination of the misfits at the poles; padding by C49, positions by C48; a second look at the padded buffer finds the same grid. *Outcome: partial.* proved for plate carree maps with the automatic choice and method 2d, for every cylindrical map with method cyl, and for every projection with the general method; ducc is modelled by its documentation; the general method does not work for 1, 1001, 2001, ... rows (C48) or for maps of two axes with pixels off the sky (C110_masked), and C110_projection_refuted shows that a cylindrical equal area map of the whole sky is taken for one of ducc's grids and filled with the values at other declinations.
* **C111 The adjoint of spherical harmonics synthesis.** One lemma per method gives the places where both directions evaluate; sums over the padded, flipped buffer reduce to sums over the map. *Outcome: partial.* proved for transforms without derivatives; with derivatives the sign of the declination component is changed in the map after the adjoint has been taken, so that C111_derivatives_refuted shows the adjoint of a map of declination derivatives to have the wrong sign; ducc is modelled by its documentation.
* **C112 Spherical harmonics analysis.** The analysis of a map with weights is the adjoint of C111 of the map times the weights, row by row in the flipped buffer; the ring of a row from the fit of the poles; the round trip through the second look, which finds the same grid with the same number of rings. *Outcome: partial.* without derivatives and iterations; proved for given weights, on the grids other than DH, off the grids for maps whose declination increases with the row, for the general method, and for the round trip; C112_area_refuted: for declinations that decrease with the row the areas are those of the rows in the opposite order (the test is of a list of two flags, which is always true); C112_quad_weights_refuted: quad_weights given to map2alm gives row y the weight of row ny-1-y for every orientation; C112_dh_refuted: a map with a row on the north pole and the south pole one past its end raises.
* **C113 Flat-sky wavelet transforms.** Index arithmetic between grids agrees with signed frequencies; spectra of real maps are Hermitian and filtered ones stay so; the phases of one scale cancel, those of later scales stay as a factor; modes by linearity. *Outcome: partial.* the coefficients are proved for scales of all sizes; the way back is proved if every scale after the first has the size of the map, and with filters prepared from the default basis if all have; C113_displacement and C113_round_trip_refuted: adding a smaller scale moves everything added before it, so that two smaller scales do not give the map back; C113_multipoles_refuted: get_ls of a smaller scale multiplies the multipoles by a cosine that can be negative; C113_power is what the norms are for; one component, without fl and scales; the basis is the one of C59.
* **C114 Fourier interpolation and nonuniform Fourier transforms.** Interpolation at a position is a shift by phases read at pixel zero, as for fft.shift; kernels of the two directions are conjugates; conjugate gradients on the normal equations of a kernel over finite index sets: residuals are mutually orthogonal, so there are at most as many as dimensions (Bessel), directions stay orthogonal to what the fit cannot see, so no division by zero. *Outcome: proved.* one field with two transformed axes; ducc0's transforms are modelled by the sums they approximate, without the error epsilon allows them; values given to nu2u and iu2nu are lists of complex numbers; findings outside the claim: C114_nufft_zero (samples that are zero give nan) and C114_complex_ignored (inufft_adjoint drops its argument complex).
* **C115 Matched filters.** Profiles even under k -> -k have real transforms, so that every step is a convolution on the torus with a scalar factor that cancels between the two normalizations; a misfit is a parabola in the flux; Cauchy-Schwarz for the variance. *Outcome: proved.* one component of spin 0 and flat transforms; NmatConstcov for apodization 1 on the map, NmatConstcorr for one map, which is proved to agree with the function; NmatWavelet uses a module it does not import and is not modelled.
* **C116 Displacements on the sphere.** In the frame of the meridian the new point has coordinates x, y, z with squares adding to one; acos and asin give it back when x is not negative; the heading at arrival is orthogonal to it; the rotation by complex multiplication. *Outcome: partial.* proved for moves that end no more than a quarter turn of longitude away and not on a pole, which includes all moves shorter than the distance to the pole; C116_pole_refuted: going over the pole ends in the wrong place (the change of longitude is taken from its sine); C116_polarization_refuted: the rotation is already that of Q and U, and lens_map_curved doubles it once more, C116_polarization_partial says so for every path and that the rotation itself is right.
* **C117 Lensing potential and convergence.** From C44 for lmul. *Outcome: proved.* one alm with stride 1; the infinite filter value at l = 0, whose products the code sets to zero, is modelled by zero.
* **C118 Boxes.** Boxes as lists of axes, against boxes as sets of points; induction over axes; corners by the bits of their number. *Outcome: partial.* proved for two axes that ascend (slices and overlaps), for axes of some width (padding) and for ascending axes or absolute margins (widening); C118_axes_refuted: box_slice reshapes to (2,2) and so raises unless there are two axes; C118_descending_refuted: a box given from its upper to its lower end overlaps nothing; C118_widen_refuted: a relative margin shrinks such a box; C118_pad_flat_refuted: an axis of no width is not padded; C118_contour_refuted: with two samples per edge box2contour repeats every corner.
* **C119 Splitting strings.** The loop over characters with the three states between, in text and in a group, by induction on the rest of the string; strings with groups blotted out determine where to cut. *Outcome: partial.* split_by_group and split_outside are proved in full; C119_escape_partial: split_esc for tokens without the escape character, the last not empty unless it is the only one; C119_escape_refuted: an empty last token is dropped, and so is an escaped escape character; C119_quotes_refuted: a group with the same start and end character never ends, since a start character is looked for first.
* **C120 Prime factors.** Invariant of the trial division: no divisor below the current candidate; uniqueness of factorization for lists of primes in order. *Outcome: proved.* python's unbounded integers; C120_nonpositive: other numbers have no factors.
* **C121 All combinations.** Each list of digits is followed by its increment; induction over the bases. *Outcome: partial.* proved for bases of at least one and lists that are not empty; C121_empty_refuted: with an empty list there is nothing to choose, but list_combination_iter raises IndexError; C121_collected_refuted: count_variable_basis yields the same list object each time, so that list(count_variable_basis(...)) is a list of zeros.
* **C122 Distributions of sums.** Entries of both running distributions are probabilities of sums of some number of draws; convolution adds the numbers of draws; square and multiply. *Outcome: proved.* exact real numbers; C122_empty: an empty distribution raises unless N is zero.
* **C123 Building geometries.** Pixel coordinates of both corners follow from the reference pixel chosen; heights of the projections grow with latitude; rounding and the shift to the reference point are bounded. *Outcome: partial.* C123_box (corners and resolution, with or without a shape), C123_box_shape, C123_centre, C123_reference and C123_compatible prove all of it for positive resolutions but the last words: C123_force_refuted: with a resolution force=True matches the first corner only, the other is up to half a pixel from the edge of the map. C123_signed_refuted: a resolution with a negative sign next to corners in the same direction gives a map beside the patch. Zenithal projections are not modelled.
* **C124 Edges of bins.** The transposed system has no kernel, by elimination from the first column on, so that solutions of the normal equations solve the system; edges follow from the first one, which the equal widths determine. *Outcome: proved.* the sparse solver gives a solution of the normal equations it is given; C124_short: with too few centers for the reference bins (the default is the second bin) there is an IndexError.
* **C125 Maps in HDF files.** By induction over the history: the datasets of a file are those of the maps that are alive, and writing at an address touches only what lies below it. *Outcome: proved.* values of the header are abstract (distinct keys that can be read in any order); extra is not modelled; C125_names_refuted shows why the names data and wcs are left out: a map written at a/wcs destroys the one at a.
* **C126 Boxes around positions.** The difference in longitude is at most asin(sin r/cos d); its derivative in r is at most 1/cos(d+r), so the mean value theorem gives r/cos(d+r). Rounding keeps the order of whole numbers. *Outcome: proved.* exact real numbers; skybox2pixbox is modelled by what C91 proves of it, for any number of turns at the first corner; C126_plain_refuted: for plain coordinates every call raises TypeError; C126_pole_refuted: at a pole a distance of zero gives nan.
* **C127 Distances from polygons.** In coordinates along the edge, across it and normal to it the product with a point of the arc is rho*cos(theta-phi): largest at phi if that is on the arc, otherwise at an end. Minima over edges are minima over the union. *Outcome: proved.* exact real numbers, one point and one polygon (the code treats each separately); where the code has nan (repeated vertices) comparisons are false, as in IEEE arithmetic.
* **C128 Splitting selections.** The position that cumsplit gives for a capacity c is the longest prefix with at most c entries, by induction along the selection; pieces between ascending positions join to a prefix. *Outcome: proved.* C128_empty_refuted: an index array without elements compares equal to Ellipsis and is split as if all were selected; C128_mask_refuted: a mask over several axes counts as one entry, so that maps indexed with it keep coordinates they should lose.
* **C129 Conditional distributions.** The rows of the unknown variables in inverse times covariance = identity, multiplied by the inverse of the unknown block of the inverse, give the row of the remainders; the diagonal of the inverse of a covariance is not zero because the quadratic form has no null vectors. *Outcome: proved.* np.linalg.inv is taken to give an inverse where there is one; exact real numbers; one matrix (the code flattens stacks, see C34). The columns of A follow the ascending order of the known variables, not the order of inds.
* **C130 Powers of matrices.** Matrices rebuilt from the columns of an orthogonal matrix multiply by multiplying the eigenvalues, and their eigenvalues are exactly the listed ones; then powers of numbers. *Outcome: proved.* np.linalg.eigh is taken to give an orthogonal decomposition; exact real numbers. With two stack axes the claim about stacks is false: the largest eigenvalue is then taken along the second stack axis, so that an invertible matrix beside a larger one becomes zero (C130_stack_refuted).
* **C131 Elliptical beams.** The vectors of eigh are a direction and plus or minus the one at right angles to it, which the square hides; two ellipses that agree in every direction have the same extreme values at the same places. *Outcome: proved.* np.linalg.eigh is taken to give eigenvalues in ascending order and orthonormal vectors; None stands for inf or nan. combine_beams is not modelled.
* **C132 Principal components.** The quadratic form is the sum of the eigenvalues times the squares of the coordinates, and the squared length the sum of the squares; what is cut off has eigenvalues below all that are kept. *Outcome: proved.* np.linalg.eigh and np.argsort are taken to do what they promise; exact real numbers; None stands for nan.
* **C133 Correlation matrices.** Entry by entry; the bounds come from the variance of x_i plus or minus a multiple of x_j being nonnegative. *Outcome: proved.* exact real numbers; None stands for inf or nan.
* **C134 Means of blocks.** Reshaping to rows gives the blocks by induction on their number; padding is long enough because the width is at most the length. *Outcome: partial.* block_mean_filter (C134_filter_partial) is right for all samples in whole blocks, and everywhere if the blocks fill the array or the array is shorter than a block (C134_filter_whole). A shorter last block is filled up with the samples before it in reverse before the mean is taken, so its samples do not become the mean of the block (C134_filter_refuted). One axis, exact real numbers, whole widths.
* **C135 Broadcasting with axes put anywhere.** shapes as lists of naturals, arrays as functions of index lists; induction over the list of shapes with the running shape as invariant, axis by axis *Outcome: partial.* C135_shape: the answer is the common shape, in both directions. C135_order: permuting shapes changes nothing. C135_arrays: shapes and elements. C135_total: an answer whenever the shapes have one. Missing: places beyond an array's own axes; there the two functions disagree (C135_beyond_refuted: broadcast_shape answers, broadcast_arrays raises)..
* **C136 Triangle waves.** remainder by floor on reals; case analysis on the quarter of the period *Outcome: proved.* C136_wave: equal to asin(sin(2 pi x/period))/(pi/2). C136_symmetry: range, period, half period, oddness. C136_slopes: the straight pieces around every whole and half period. On exact numbers, one element of the array..
* **C137 Overlap of two discs.** real analysis with the standard library: inverse cosine, addition formulas, derivative of the composition *Outcome: proved.* C137_segments: two segments of the angle 2a at distance 2R cos a. C137_distances: every distance is of that form or beyond 2R with area 0. C137_ends: the values at both ends. C137_decreasing: strictly decreasing. C137_derivative: the derivative is minus the chord..
* **C138 Sweeps of a scan.** one pass over marked values with the current run as invariant; sorted lists without repeats *Outcome: proved.* C138_tiles, C138_turns, C138_each, C138_total, C138_still. scipy's label and maximum_position are modelled as one pass over the mask; its choice among equal extremes is an arbitrary function. Exact numbers..
* **C139 Resizing arrays.** arrays as functions of index lists; induction over axes and over the list of assignments *Outcome: partial.* C139_shape, C139_first, C139_values, C139_back. False for more sizes than the array has axes: they go round modulo the number of axes and the last one wins, without an error (C139_excess_refuted)..
* **C140 Sums by label.** induction over labels with the sums so far as invariant *Outcome: proved.* C140_sums, C140_total. C140_negative: a negative label is not refused but counts from the largest one. One line along the axis, exact numbers..
* **C141 Transposed indices and picking items.** division with remainder; positions as sorted lists and permutations *Outcome: proved.* C141_transpose, C141_back, C141_only, C141_without, C141_split..
* **C142 Items to be spread over processing cells are all handed out and cells stay near the limit.** Natural numbers; case analysis on the remainder of the division. *Outcome: partial.* C142_sum (sum is N, every cell in 1..nmax+1), C142_equal (equal sizes apart from one balanced last cell) hold always. The limit itself is proved when nmax mod 3 is not 2 (C142_limit_partial) and is false otherwise: distribute(10,5) gives cells of 4 and 6 (C142_limit_refuted)..
* **C143 Restricting the resolution of a HEALPix map gives an allowed resolution that is nearest in the wanted direction.** Real numbers, floor and ceiling from the standard library; logarithm to base two. *Outcome: partial.* C143_positive, C143_any, C143_mul32 and C143_pow2 are proved. The last sentence fails for maps of at most 1024 pixels, where mul32 truncates the wanted resolution: 2.7 rounded up with mul32 gives 2 (C143_small_refuted)..
* **C144 The colour of a value is the colour table interpolated linearly, whichever driver computes it.** Real arithmetic; the searches by induction over the table; the line is a separate relation with a uniqueness theorem. *Outcome: partial.* C144_python, C144_fortran (within half a shade of the line), C144_line (the line is single valued), C144_exact, C144_nan. The drivers differ by at most one, and only where the line is halfway between two shades (C144_drivers_partial); there they do differ, since numpy rounds halves to even and nint away from zero (C144_drivers_refuted)..
* **C145 Each cell of the search grid lists exactly the sources within reach of it.** Real numbers with the truncation of the code; the two passes as folds over the visits with an error when a cell overflows. *Outcome: proved.* C145_cells, C145_reach, C145_once, C145_cover. With wrapping a source may be listed more than once in a cell, once for each image in reach. The middle axes of the positions and the option unwind are not modelled..
* **C146 Cutting a map into cells and putting it together again loses only incomplete cells.** Index arithmetic of row-major order, as the code reshapes. *Outcome: proved.* C146_cellify, C146_uncellify, C146_roundtrip. Leading axes of the map are independent of each other and not modelled..
* **C147 Matching of two source catalogues by position finds the closest source within the tolerance.** Vectors over the reals; chord at most the angle; the tree is a relation; induction over the first catalogue. *Outcome: partial.* C147_closest, C147_complete and C147_total hold for every answer the tree may give. The shape is right when there is a match (C147_shape_partial); without any it is (0,) and not (0,2) (C147_shape_refuted). C147_shared: the matching is one way, two sources may be matched with the same one. The tree of scipy is taken as its specification..
* **C148 Timing statistics count every block once, with its own time, whatever fails or nests.** Big-step interpreter with exceptions against a separate account of blocks; structural induction. *Outcome: partial.* C148_stats_partial needs show to be used with the default clock: show does not pass on the clock it is given, so a block shown with another clock records default time (C148_show_refuted). C148_transparent, C148_nested, C148_lines. Times are whole numbers instead of floats..
* **C149 Tiles that lie next to each other are put together to the map they were cut from.** Pixel functions; induction over the tiles of a row and over the rows. *Outcome: proved.* C149_tiles, C149_error, C149_error_rows. The coordinate system is reduced to the place of the corner in the common pixelization..
* **C150 Centring a spectrum puts frequencies in order and can be undone.** Integers modulo the length. *Outcome: proved.* C150_sorted, C150_inverse, C150_caller; C150_twice shows that the shift is not its own inverse for odd lengths..
* **C151 The position of the extreme value is that of the first largest or smallest pixel of each component.** Loop invariant over the values; index arithmetic of row-major order. *Outcome: proved.* C151_argmax, C151_argmin, for unit "pix". With unit "coord" the code converts the position with pix2sky, which is the subject of other claims. Values are rationals..
* **C152 The basis of sines and cosines holds those of all multiples.** Induction over the loop with the addition theorems. *Outcome: proved.* C152_cossin. For an x of whole numbers the code would store whole numbers; the model is over the reals..
* **C153 Zipping iterators to the end of the row asks all of them equally often.** Iterators as the lists of what remains; induction over the shortest length. *Outcome: partial.* C153_zip2 for at least one iterator. Without any, python's zip ends at once but zip2 never ends (C153_none_refuted)..
* **C154 The number of digits of a number.** Real logarithm and floor; powers of ten. *Outcome: partial.* C154_digits_partial: right from 10 on. For all numbers below 10 the result is 2 instead of 1, since the maximum with 1 is taken of the logarithm and not of the number (C154_small_refuted)..
* **C155 A regularized beam keeps the values above the cut and gives all beams the same tail.** Real powers; lists. *Outcome: partial.* C155_length, C155_keep, C155_tail, C155_ratio, C155_total_partial. Asking for exactly as many values as come before the cut is an error (C155_total_refuted). A beam that never falls below the cut still has its last value replaced by the cut (C155_last). Beams of one dimension, real numbers; normalize is not modelled (it divides the array of the caller in place)..
* **C156 An angle is in a range if any of its turns is.** Uniqueness of the rewound angle (C23). *Outcome: proved.* C156_between, on exact numbers..
* **C157 Numbers with a given fraction.** The modulo gives the signed distance to the nearest whole number. *Outcome: proved.* C157_hasoff; C157_wide: above one half every number is accepted. Exact numbers..
* **C158 Compatible pixelisations have the same pixel centres.** Rational arithmetic per axis. *Outcome: partial.* C158_compatible_partial: for equal pixel sizes and no rotation. Pixel sizes that differ by less than the tolerance are accepted although the centres drift apart (C158_drift_refuted). A rotation matrix in only one of the headers is not compared (C158_rotation_refuted). Projections are not modelled..
* **C159 Flattening the first or last axes.** Place of an element in memory as a function of shape and index. *Outcome: partial.* C159_preflat_partial, C159_postflat_partial, unless the remaining axes make the array empty (numpy then refuses). A negative number for preflat flattens everything (C159_preflat_negative_refuted), and for postflat it acts like the positive number (C159_postflat_negative_refuted)..
* **C160 Giving an array a wanted number of axes.** Place of an element in memory as a function of shape and index. *Outcome: proved.* C160_more, C160_fewer (the other axes not of length zero, where numpy cannot infer the merged length)..
* **C161 Removing a slope matches up the ends.** Sums of lines over lists. *Outcome: partial.* C161_line. C161_ends_partial: with w=1 both ends become zero. With more samples the averages of the ends still differ whenever they differed before, since the slope is divided by one less than the length instead of the distance of the middles of the ends (C161_ends_refuted). One row, the mean as the average, real numbers..
* **C162 Rescaling maps the extremes to the ends of the range.** Extremes of lists over the reals. *Outcome: partial.* C162_range_partial, C162_linear, for arrays with two different values. An array of equal values gives nan (C162_constant_refuted)..
* **C163 Grids are evenly spaced between the ends of the box.** Real arithmetic. *Outcome: partial.* C163_grid_partial. A single sample with endpoint gives nan, where linspace gives the start (C163_single_refuted). One axis; the order of axes is not modelled..
* **C164 Cropping a geometry keeps just the wanted pixels.** One linear axis on exact numbers. *Outcome: partial.* C164_box_partial, C164_point. A box given backwards keeps its start but extends forwards from it, so that it covers other pixels (C164_backwards_refuted). Given a pixel box or central pixel; the conversion from sky coordinates is not part of it..
* **C165 Replacing zero strides moves no element.** Addresses as sums over axes; induction over the axes from the last. *Outcome: partial.* C165_address, C165_others, C165_nonzero_partial (if no longer axis has a zero stride). In front of a broadcast axis the stride stays zero (C165_nonzero_refuted)..
* **C166 Fitting a spectrum to the components of a map.** Quadratic forms as double sums; padding with zeros. *Outcome: proved.* C166_entries, C166_single, C166_scalar, C166_covariance, at one multipole..
* **C167 Geometry objects act as pairs of shape and wcs.** Lists. *Outcome: partial.* C167_parts_partial for a shape and a wcs. Made from another geometry or a map it always fails, since the assertion looks at the argument instead of the wcs found (C167_object_refuted). Its downgrade passes an op that downgrade_geometry does not take, and so always fails (not modelled)..
* **C168 Expanding a resolution to two axes.** Case analysis. *Outcome: proved.* C168_expand, without explicit signs..
* **C169 Limiting healpix transforms in angle keeps whole rings.** Filtering of lists by a mask. *Outcome: partial.* C169_rings_partial for angles, numbers of pixels and longitudes. The places of the rings in the map are not limited with them: whenever a ring is dropped there are more places than rings, and the result describes no list of rings (C169_offsets_refuted)..
* **C170 Padding a spectrum to a maximum multipole.** Lists. *Outcome: partial.* C170_pad_partial. A spectrum that is already longer is an error instead of being cut (C170_long_refuted)..
* **C171 Cutouts have the wanted size and lie in the map.** Rounding half to even on exact rationals. *Outcome: partial.* C171_size_partial: unless the size is odd and the position half way between pixels; then it can be one too large or empty (C171_size_refuted). C171_inside for a padding of at least one, the default; without padding it can reach beyond the map (C171_nopad_refuted). One axis, exact numbers, given the pixel position..
* **C172 The Legendre basis holds the Legendre polynomials.** Induction over the loop; the polynomials are given by their recursion with degree. *Outcome: partial.* C172_legendre_partial, C172_ends, for at least two different x; otherwise the result is nan (C172_constant_refuted). Real numbers..
* **C173 Parsing lists of numbers and ranges.** Division with floor for both signs. *Outcome: partial.* C173_range_partial (step not 0, which raises), C173_default, C173_words. Without dtype, the default of parse_numbers, everything fails, since None is called (C173_dtype_refuted). Whole numbers; splitting of the text is not modelled; numbers after the third of a word are ignored..
* **C174 Padding a geometry moves no pixel.** Rational arithmetic. *Outcome: proved.* C174_pad, along one axis..
* **C175 Pruned grid lines keep all that can be seen.** Induction over the mask; points found by their index. *Outcome: partial.* C175_points, C175_steps_kept. Steps are added: when more than two points outside the area lie between two visits, the ones in the middle are left out and their neighbours joined (C175_joined_refuted). Finite and inside are arbitrary tests of points..
* **C176 Bounds hold the image and all labels.** Induction over the running smallest and largest. *Outcome: partial.* C176_bounds_partial for at least one box, along one axis; without boxes the call fails (C176_none_refuted)..
* **C177 Scaling of spectra and back.** Entries by index; factors are not zero. *Outcome: partial.* C177_scale, C177_back_partial for l at least 1; l=0 is set to zero and lost (C177_monopole_refuted). Without the argument l; real numbers..

## Trusted base

* Coq 8.16.1's kernel, and its `vm_compute` for the examples and a few closed computations.
* The reading of the source code in the Model files: there is no mechanical link between /repo and the model. Each
  definition cites the lines it was written from. numpy, astropy, ducc0, FFTW, MPI, OpenMP and the C and Fortran
  compilers are represented only by the behaviour stated in the comments.
* Exact arithmetic in place of floating point.
* The statements themselves, with the vocabulary of the Spec files.
* Libraries: Coq's standard library (including Reals), and Coquelicot in IplLemmas8.v and the files that import it, for
  derivatives. No axioms, `Admitted` or section-less variables of our own.

Axioms used, by theorem (output of `Print Assumptions`, collected for every theorem of MANIFEST.json):

* *Closed under the global context* (no axioms): the 470 theorems not listed below.
* `Coq.Logic.Classical_Prop.classic` (1 theorems): C47_unravel_ravel_partial.
* `Coq.Reals.ClassicalDedekindReals.sig_forall_dec` (11 theorems): C118_corners, C122_empty, C132_order, C166_entries, C166_scalar, C166_single, C44_lmul, C44_single_refuted, C44_stride_refuted, C59_digital, C97_center_kept.
* `Coq.Logic.FunctionalExtensionality.functional_extensionality_dep`, `Coq.Reals.ClassicalDedekindReals.sig_forall_dec` (103 theorems): C104_labels, C104_own_label, C104_simple, C104_transform, C105_complement, C105_grow, C105_shrink, C105_zero_radius, C108_bin_radius, C108_bin_values, C108_empty_bins, C108_lbin, C108_linear, C108_outermost, C108_raises, C108_rbin, C108_total, C109_affine, C109_median, C109_monotone, C109_order, C109_quantile, C109_scale, C109_within, C117_inferred, C117_kappa, C117_round_trip, C118_area, C118_axes_refuted, C118_contour, C118_contour_refuted, C118_descending_refuted, C118_overlap, C118_overlap_laws, C118_overlaps, C118_pad, C118_pad_flat_refuted, C118_slice, C118_unwrap, C118_widen_partial, C118_widen_refuted, C122_dice, C122_distpow, C124_edges, C124_short, C124_uniform, C124_unique, C129_conditional, C129_masked, C129_total, C132_largest, C132_vectors, C134_downgrade, C134_filter_partial, C134_filter_refuted, C134_filter_whole, C134_total, C140_negative, C140_sums, C140_total, C144_drivers_partial, C144_drivers_refuted, C144_exact, C144_fortran, C144_line, C144_nan, C144_python, C145_cells, C145_cover, C145_once, C145_reach, C161_ends_partial, C161_ends_refuted, C161_line, C162_constant_refuted, C162_linear, C162_range_partial, C163_grid_partial, C163_single_refuted, C166_covariance, C169_offsets_refuted, C169_rings_partial, C172_constant_refuted, C172_ends, C172_legendre_partial, C28_conjugate, C28_ends, C28_err, C28_minres, C28_residual, C28_resume, C42_any_schedule, C42_no_fault, C44_lmatmul_double, C44_lmatmul_single_partial, C69_plain, C70_range_refuted, C70_rewind_partial, C88_bin, C88_bin_refuted, C88_down, C88_down_total, C88_up_down.
* `Coq.Logic.FunctionalExtensionality.functional_extensionality_dep`, `Coq.Reals.ClassicalDedekindReals.sig_forall_dec`, `Coq.Reals.ClassicalDedekindReals.sig_not_dec` (165 theorems): C102_adjoint, C102_energy, C102_nyquist, C102_odd, C102_pix, C102_pix_sign, C102_total, C104_flat, C104_label_lost, C105_apod, C105_apod_monotone, C106_constant, C106_crossfade, C106_interior, C106_offset, C106_raises, C106_seam, C106_taper, C106_unknown_fill, C106_zero, C110_alm2map_partial, C110_masked, C111_adjoint_partial, C111_derivatives, C111_derivatives_refuted, C112_area_partial, C112_area_refuted, C112_dh_refuted, C112_general, C112_grid_partial, C112_quad_weights_partial, C112_quad_weights_refuted, C112_round_trip, C112_weights, C113_coefficients, C113_displacement, C113_exact, C113_multipoles_partial, C113_multipoles_refuted, C113_power, C113_round_trip_partial, C113_round_trip_refuted, C114_adjoint, C114_complex_ignored, C114_exact, C114_grid, C114_interpolator, C114_inverse_adjoint, C114_least_squares, C114_nufft, C114_nufft_ends, C114_nufft_zero, C114_periodic, C114_samples, C114_shift, C114_u2nu, C115_b2, C115_constcov_best, C115_constcov_flux, C115_constcov_variance, C115_dual_best, C115_dual_flux, C115_lowcorr_high_acc, C115_lowcorr_kappa, C115_lowcorr_uniform, C115_lowcorr_white, C115_nmat_constcorr, C115_nmat_constcov, C115_rmul, C115_rpow, C115_smoothivar, C115_source, C115_white_best, C115_white_flux, C115_white_variance, C116_flat, C116_pole_wrap, C116_utils_pole_wrap, C126_defined, C126_plain_refuted, C126_pole_refuted, C131_compress, C132_merged, C133_back, C133_bounds, C133_corr, C133_units, C14_areas_partial, C152_cossin, C15_inplace, C15_intensity, C15_rotate_pol, C46_agree_partial, C46_components_refuted, C59_cosine_partial, C59_cosine_refuted, C60_compose, C60_inverse, C69_rotate, C75_deriv_bounds_refuted, C75_deriv_refuted, C75_interpol, C76_nearest_pixel, C76_zero_edge_refuted, C77_edges, C77_zero_refuted, C78_constant, C78_conv2_refuted, C78_gradient, C79_cubic_refuted, C79_pixel_refuted, C79_quintic_refuted, C80_adjoint, C80_backward, C80_empty, C80_hermitian, C80_inverse, C80_map_inverse, C80_modes, C80_real, C80_real_length_partial, C80_unitary, C81_adjoint_refuted, C81_cheb, C81_cheb2_refuted, C81_cheb2_roundtrip, C81_cheb_eval, C81_inverse, C81_map_partial, C81_map_refuted, C81_names, C81_redft00, C81_too_short, C81_unnormalized, C82_add_partial, C82_add_refuted, C82_integer, C82_map_fractional, C82_trig, C83_keep, C83_map, C83_map_complex_refuted, C83_map_corner_false_refuted, C83_map_off, C83_odd_refuted, C83_roundtrip_partial, C83_roundtrip_refuted, C83_trig, C83_units, C84_complement, C84_complex, C84_compose, C84_mean, C84_roll, C84_waves, C87_complex_refuted, C87_factors, C87_factors_one, C87_fft_partial, C87_keep_partial, C87_looks_done_refuted, C87_same, C87_trig_partial, C95_rect, C96_rotmatrix.
* `Coq.Logic.Classical_Prop.classic`, `Coq.Logic.FunctionalExtensionality.functional_extensionality_dep`, `Coq.Reals.ClassicalDedekindReals.sig_forall_dec`, `Coq.Reals.ClassicalDedekindReals.sig_not_dec` (124 theorems): C102_div, C102_grad, C102_laplace, C103_all, C103_closest, C103_first, C103_first_order, C103_mutual, C103_wide, C104_sphere, C110_projection_refuted, C113_buttertrim, C116_polarization_partial, C116_polarization_refuted, C116_pole_refuted, C116_position, C116_position_partial, C116_rotation_adds, C116_rows, C116_zero, C123_box, C123_box_shape, C123_centre, C123_compatible, C123_force_refuted, C123_reference, C123_signed_refuted, C126_columns, C126_covers, C126_rows, C127_distance, C127_zero, C130_add, C130_group, C130_inverse, C130_power, C130_root, C130_stack, C130_stack_refuted, C131_back, C131_expand, C131_expand_only, C131_recovered, C131_round_trip, C136_slopes, C136_symmetry, C136_wave, C137_decreasing, C137_derivative, C137_distances, C137_ends, C137_segments, C143_any, C143_mul32, C143_positive, C143_pow2, C143_small_refuted, C147_closest, C147_complete, C147_shape_refuted, C147_shared, C147_total, C14_offsky_refuted, C154_digits_partial, C154_small_refuted, C155_keep, C155_last, C155_length, C155_ratio, C155_tail, C155_total_partial, C155_total_refuted, C15_queb, C177_back_partial, C177_monopole_refuted, C177_scale, C59_buttertrim, C59_butterworth, C59_compact, C59_levels, C69_T0_refuted, C69_inverse_partial, C69_planck, C75_layout_refuted, C75_map_coordinates_partial, C75_short_axis_refuted, C75_spline_filter, C76_cardinal, C76_nearest_refuted, C76_spline_partial, C78_spline_constant_partial, C79_derivative_partial, C82_derivative, C84_power, C85_average, C85_bilinear, C85_inverse, C85_mean, C85_nofft, C85_powers, C86_adjoint, C86_adjoint_real, C86_back, C86_raises, C86_round_trip, C86_unitary, C86_waves, C95_ang_rect_ang, C95_angdist, C95_metric, C95_rect_ang_rect, C95_return_r_refuted, C95_vec, C95_vec_ang, C96_distance, C96_euler, C96_inverse, C96_site, C97_bore, C97_center, C97_distance, C97_inverse_partial, C97_restore_refuted, C98_round_trip.

## Modelled code

Collected from the comments in the Model files (source file: lines, as cited beside each definition).

* `aberration.py` (of 377 lines): 197-207, 247-253, 272-283, 288-291, 317-331, 334-364
* `analysis.py` (of 1222 lines): 124-355, 395-426, 433-471, 1062-1063, 1077-1091
* `array_ops.F90` (of 134 lines): 59-131
* `array_ops.py` (of 82 lines): 16, 24
* `bench.py` (of 94 lines): 54-82
* `bunch.py` (of 172 lines): 6-37, 40-49, 52-93, 111-172
* `cgrid.py` (of 277 lines): 24-47, 226-229
* `cmisc.pyx` (of 238 lines): 44-74, 92-122, 126-147, 209-240
* `cmisc_core.c` (of 323 lines): 16-79, 84-149, 152-247, 250-263
* `colorize.py` (of 177 lines): 121-139
* `coordinates.py` (of 444 lines): 124-181, 246-314
* `curvedsky.py` (of 1418 lines): 38-42, 83-170, 209-301, 404-428, 433-434, 464-475, 478-491, 579-586, 616-637, 727-929, 989-1109, 1138, 1141-1196, 1207-1382
* `device.py` (of 310 lines): 118-122, 131-173, 179-182, 283
* `distances.pyx` (of 480 lines): 173, 213, 263
* `distances_core.c` (of 1365 lines): 10-13, 48-85, 168-247, 261, 642, 785-831, 954-997, 1025-1035, 1041-1061, 1086-1288, 1321-1364
* `enmap.py` (of 3367 lines): 51-56, 99-100, 125-143, 165-256, 300-307, 320-321, 435-465, 471-476, 483-559, 607-611, 639-791, 807-812, 855-867, 984-988, 1049-1051, 1102-1132, 1158-1164, 1197-1212, 1218-1253, 1262-1302, 1313-1394, 1427-1455, 1605-1663, 1676-1723, 1747-1774, 1777-1787, 1981-2006, 2019-2046, 2072-2163, 2234-2351, 2358-2359, 2392-2442, 2463-2508, 2514-2542, 2835-2903, 2989-3012, 3042-3099, 3109-3115, 3128-3213, 3249-3366
* `fft.py` (of 762 lines): 15-31, 40-46, 51-64, 124-263, 266-311, 330, 334-339, 342-580, 585-599, 608-640, 745-746
* `interpol.F90` (of 796 lines): 7-31, 89-420, 442-518, 527-613
* `interpol.py` (of 295 lines): 7-114
* `lensing.py` (of 368 lines): 80-94, 115-131, 228-231, 288-368
* `multimap.py` (of 291 lines): 5-16, 44-77
* `pointsrcs.py` (of 654 lines): 390-410, 424-444, 447-461, 465-488
* `powspec.py` (of 200 lines): 5-36, 53-113, 121-126
* `reproject.py` (of 875 lines): 388-417, 781-789, 825-836
* `resample.py` (of 138 lines): 5-118
* `srcsim.pyx` (of 145 lines): 85
* `srcsim_core.c` (of 837 lines): 190-209, 247-312, 337-430, 434-442, 445-521, 561-587, 590-605, 618-638, 773-782, 792-850
* `tilemap.py` (of 527 lines): 4-7, 19-70, 111-133, 150-154, 159-209, 231-278, 314-376, 382-394, 399-410, 416-427, 433-484, 510-524
* `uharm.py` (of 277 lines): 53-130, 157-169, 187-210
* `utils.py` (of 3727 lines): 92-99, 107-155, 163-177, 186-218, 237-319, 327-346, 376-479, 531-534, 623-660, 718-752, 755-795, 859-974, 979-1042, 1053-1079, 1111-1144, 1150-1248, 1261-1384, 1411-1450, 1471-1484, 1491-2035, 2047-2050, 2066-2133, 2136-2242, 2273-2286, 2292-2303, 2312-2336, 2476-2541, 2563-2654, 2660-2662, 2736-2738, 2747-2768, 2804-2826, 2848-2876, 2886-2901, 3131-3159, 3189-3191, 3197-3277, 3298-3299, 3311-3453, 3474-3478, 3502-3515, 3522-3544, 3578-3592, 3608-3623, 3656-3660, 3716-3727
* `wavelets.py` (of 495 lines): 32-36, 39-42, 61-65, 68-71, 74, 98, 104-107, 145-157, 276-277, 304-372, 386-392, 405-421, 434-451, 455-461
* `wcsutils.py` (of 638 lines): 69-105, 110-122, 145-163, 174-175, 188-204, 279-343, 415-451, 516-583, 602-627

## Code that is not modelled

* Rounding, nan and inf (except where a comment says so), dtype conversion, memory layout other than the strides that a
  property is about.
* `enplot.py`, `colorize.py`, `colors.py`, `bench.py`, `mpi.py`, `memory.py`, `sqlite.py`: plotting, output, timing and thin wrappers.
* `analysis.py`, `lensing.py`, `uharm.py`, `reproject.py`, `pointsrcs.py`, `cgrid.py`, `old_aberration.py`: numerical pipelines whose
  content is floating point arithmetic around transforms.
* The transforms: the discrete Fourier transforms are modelled by their sums, not by the fast algorithms; the spherical
  harmonic transforms in `curvedsky.py` (ducc0) are not modelled, apart from the buffers, indices and iterations around them.
* `enmap.py`: file formats, non-affine projections (where a property needs one it is a parameter), random maps and measured
  power spectra.
* `interpol.py`: `build` and the classes around it. `interpol.F90`: the `_old` variants, which nothing calls.
* The `cellgrid` distance method of `distances_core.c`, and its timing variants.

