{"id": "C01", "title": "Heap pops a minimum and loses nothing", "statement": "Starting from an empty heap, after any sequence of push, pop and update calls of an instantiated heap-def.h heap, the heap holds exactly the elements pushed and not yet popped, and each pop returns an element that no remaining element precedes under the user comparison.", "quantifier": "all element values, all total preorders given as comparison, all finite histories of push/pop/update of any length", "why_tests_cant": "the tree shape depends on the whole history; tests only reach a few shapes and sizes", "anchors": ["vl/heap-def.h: VL_HEAP_push, VL_HEAP_pop, VL_HEAP_update, VL_HEAP_up, VL_HEAP_down"]}
{"id": "C02", "title": "qsort-def.h sorts in place", "statement": "The generated sort function leaves the array a permutation of its input, sorted under the user comparison, touching only indexes 0..size-1, and always terminates, for size >= 1.", "quantifier": "all arrays of any length >= 1 (duplicates included) and all total preorders given as comparison", "why_tests_cant": "pivot positions and duplicate patterns are unbounded; a wrong partition boundary only shows on particular patterns", "anchors": ["vl/qsort-def.h: VL_QSORT_sort, VL_QSORT_sort_recursive"]}
{"id": "C03", "title": "Random shuffles are permutations and every permutation is reachable", "statement": "vl_rand_permute_indexes (arrays of up to 2^31 entries) and the generated shuffle function rearrange the array without losing or duplicating an entry whatever numbers the generator returns, never index outside the array, and each of the n! arrangements is produced by some sequence of in-range draws.", "quantifier": "all arrays, all generator outputs, all target permutations", "why_tests_cant": "n! outcomes and 2^32 draws per step cannot be enumerated", "anchors": ["vl/random.c: vl_rand_permute_indexes", "vl/shuffle-def.h: VL_SHUFFLE_shuffle", "vl/random.h: vl_rand_uindex"]}
{"id": "C04", "title": "Random number ranges", "statement": "From any generator state reachable through the public API, vl_rand_uint32 < 2^32, vl_rand_uint64 < 2^64, vl_rand_int31 < 2^31, vl_rand_int63 < 2^63, vl_rand_uindex(range) < range for range > 0, real1 in [0,1], real2 in [0,1), real3 in (0,1), res53 in [0,1) (reals as exact rationals).", "quantifier": "all histories of init/seed/seed_by_array/draw calls, all ranges", "why_tests_cant": "the state space has 2^19937 states", "anchors": ["vl/random.c: vl_rand_uint32", "vl/random.h: vl_rand_uindex, vl_rand_uint64, vl_rand_int31, vl_rand_int63, vl_rand_real1, vl_rand_real2, vl_rand_real3, vl_rand_res53"]}
{"id": "C05", "title": "Seeding erases history; a fresh generator behaves as seeded with 5489", "statement": "After vl_rand_seed(s) (or seed_by_array with a non-empty key) the whole future output depends only on the seed (key), whatever was done with the generator before; a generator that was only initialised produces the stream of seed 5489; and no operation reads or writes outside the 624-word state.", "quantifier": "all earlier histories, all seeds, all non-empty keys, all output positions", "why_tests_cant": "histories and streams are unbounded", "anchors": ["vl/random.c: vl_rand_init, vl_rand_seed, vl_rand_seed_by_array, vl_rand_uint32"]}
{"id": "C06", "title": "The stream is MT19937", "statement": "The k-th number drawn after seeding is the tempered k-th word of the sequence x[n+624] = x[n+397] xor twist(x[n], x[n+1]) started from the 624 seeded words: the in-place block refill in vl_rand_uint32 implements exactly the Mersenne Twister recurrence, for every k.", "quantifier": "all initial states and all stream positions k", "why_tests_cant": "the in-place refill mixes old and new words; only an inductive argument covers all positions and states", "anchors": ["vl/random.c: vl_rand_uint32"]}
{"id": "C07", "title": "Fast integer square root is exact", "statement": "vl_fast_sqrt_ui8/16/32/64 return floor(sqrt(x)) for every argument of the type, with no intermediate exceeding the type width.", "quantifier": "all x in [0, 2^b) for b = 8, 16, 32, 64 (and any even b)", "why_tests_cant": "2^64 arguments", "anchors": ["vl/mathop.h: VL_FAST_SQRT_UI, vl_fast_sqrt_ui8, vl_fast_sqrt_ui16, vl_fast_sqrt_ui32, vl_fast_sqrt_ui64"]}
{"id": "C08", "title": "Bounded string writers respect the buffer", "statement": "vl_string_copy, vl_string_copy_sub, vl_string_basename and vl_string_replace_wildcard never write past the size given, NUL-terminate the buffer whenever its size is at least one, return the full untruncated length, and leave in the buffer the longest prefix of the full result that fits.", "quantifier": "all source strings, buffer sizes and prior buffer contents", "why_tests_cant": "off-by-one errors at truncation depend on the relation between unbounded lengths", "anchors": ["vl/stringop.c: vl_string_copy, vl_string_copy_sub, vl_string_basename, vl_string_replace_wildcard"]}
{"id": "C09", "title": "Wildcard substitution computes the substituted string", "statement": "vl_string_replace_wildcard produces the source with every unescaped wildcard character replaced by the replacement string and every escape character removed, taking the character after it literally.", "quantifier": "all source and replacement strings, all wildcard and escape characters", "why_tests_cant": "arbitrary interleavings of escapes and wildcards", "anchors": ["vl/stringop.c: vl_string_replace_wildcard"]}
{"id": "C10", "title": "Protocol prefixes are recognised as documented", "statement": "vl_string_parse_protocol splits the string at its first ://, returns the text after it (the whole string when there is none, with protocol none), decides the protocol from the text before it only, and the names given by vl_string_protocol_name for the supported protocols parse back to the same protocol.", "quantifier": "all strings", "why_tests_cant": "a matcher that compares only a prefix is wrong on strings no test enumerates", "anchors": ["vl/stringop.c: vl_string_parse_protocol, vl_string_protocol_name"]}
{"id": "C11", "title": "Case-insensitive comparison and enumeration lookup", "statement": "vl_string_casei_cmp is zero exactly when the strings are equal up to ASCII case, is antisymmetric and transitive; vl_enumeration_get, vl_enumeration_get_casei and vl_enumeration_get_by_value return the first matching entry of the table, or NULL exactly when there is none.", "quantifier": "all strings and all enumeration tables", "why_tests_cant": "ordering laws quantify over triples of unbounded strings", "anchors": ["vl/stringop.c: vl_string_casei_cmp, vl_enumeration_get, vl_enumeration_get_casei, vl_enumeration_get_by_value"]}
{"id": "C12", "title": "PGM streams round-trip", "statement": "vl_pgm_insert followed by vl_pgm_extract_head and vl_pgm_extract_data returns the same descriptor and the same pixels for every maximum value that the header reader accepts (65536 and more), and the header reader answers VL_ERR_PGM_INV_META for the others; the reader terminates with an error code on every file.", "quantifier": "all image sizes, pixel contents, byte orders, trailing bytes; all files", "why_tests_cant": "file contents are unbounded; tests only read sample files", "anchors": ["vl/pgm.c: vl_pgm_insert, vl_pgm_extract_head, vl_pgm_extract_data, vl_pgm_read_new, remove_blanks, remove_line"]}
{"id": "C13", "title": "Byte swapping is an involution", "statement": "Swapping host/big endianness of 2, 4 and 8 byte values twice gives back the value, and on a little-endian host the swapped bytes are the reversed bytes.", "quantifier": "all byte values, both host endiannesses", "why_tests_cant": "2^64 values", "anchors": ["vl/host.h: vl_swap_host_big_endianness_8, vl_swap_host_big_endianness_4, vl_swap_host_big_endianness_2"]}
{"id": "C14", "title": "Option parsing delivers each argument once", "statement": "Parsing a command line in which neither - nor -- appears, by calling getopt_long until it returns -1, reports every option with its argument once and in order, moves the arguments used by options first, and leaves optind at the first of the other arguments, which follow in their original order.", "quantifier": "all argument vectors without - and --, all option tables", "why_tests_cant": "argument vectors are unbounded and options may be interleaved with other arguments in any way", "anchors": ["vl/getopt_long.c: getopt_long"]}
{"id": "C15", "title": "kd-tree build indexes every datum once", "statement": "After vl_kdforest_build every tree's leaves partition the data indexes: each datum lies in exactly one leaf, node links form a binary tree with at most 2n-1 nodes, and the data on the two sides of each split respect the threshold.", "quantifier": "all data sets (duplicates included), all dimensions, both thresholding methods, all random choices of split dimension", "why_tests_cant": "tree shapes depend on unbounded data and on random choices", "anchors": ["vl/kdtree.c: vl_kdtree_build_recursively, vl_kdforest_build, vl_kdtree_node_new"]}
{"id": "C16", "title": "Exact kd-forest queries return true nearest neighbours", "statement": "With no comparison limit and L2 distance, a query returns min(k, n) distinct data indexes sorted by distance, with their true distances, and no other datum is closer than any returned one, whatever forest was built.", "quantifier": "all data sets, queries, k, numbers of trees and random builds", "why_tests_cant": "branch-and-bound pruning errors only lose a neighbour for particular geometry", "anchors": ["vl/kdtree.c: vl_kdforestsearcher_query, vl_kdforest_query_recursively, vl_kdtree_calc_bounds_recursively"]}
{"id": "C17", "title": "Approximate kd-forest queries respect the comparison budget", "statement": "With a comparison limit m > 0, a query computes at most m distances and returns that number; with or without a limit, and for both distances, the neighbours returned are the nearest of the data compared, distinct, by increasing distance and with their true distances; unfilled neighbours are marked with index -1 and NaN; and no buffer of the searcher overflows, whatever queries came before.", "quantifier": "all forests, sequences of queries and limits", "why_tests_cant": "depends on the interleaving of several trees in one priority queue and on state left by earlier queries", "anchors": ["vl/kdtree.c: vl_kdforestsearcher_query, vl_kdforest_query_recursively"]}
{"id": "C18", "title": "Searchers of a forest can be created and deleted in any order", "statement": "Any interleaving of vl_kdforest_new_searcher and vl_kdforestsearcher_delete keeps the forest's searcher list equal to the live searchers, vl_kdforest_get_searcher(pos) returns the pos-th live searcher in order of creation, and vl_kdforest_delete releases each of them once.", "quantifier": "all histories of create/delete", "why_tests_cant": "pointer surgery on a doubly linked list must be right for every position and history", "anchors": ["vl/kdtree.c: vl_kdforest_new_searcher, vl_kdforestsearcher_delete, vl_kdforest_get_searcher"]}
{"id": "C19", "title": "MSER visits pixels in stable intensity order", "statement": "The pixel order computed by vl_mser_process is a permutation of all pixel indexes sorted by intensity, ties in raster order.", "quantifier": "all images of any dimension and size", "why_tests_cant": "counting-sort offsets are wrong only on particular histograms", "anchors": ["vl/mser.c: vl_mser_process"]}
{"id": "C20", "title": "MSER extremal regions are the level-set components", "statement": "On every image, vl_mser_process completes and the extremal regions it extracts are exactly the connected components of the level sets: every component of every level is one region, listed once, its area is the number of its pixels and its parent is the next larger component.", "quantifier": "all images of any number of dimensions and size, any previous contents of the buffers", "why_tests_cant": "union-find with path shortening is an invariant over an unbounded sequence of merges", "anchors": ["vl/mser.c: vl_mser_process, climb"]}
{"id": "C21", "title": "MSER statistics account for every extremal region", "statement": "The regions returned by vl_mser_process are exactly the maximally stable ones that pass the filters, in order; each statistic counts exactly the stable regions removed for that reason, and extremal = unstable + bad + big + small + duplicate + selected; the region covering the whole image is never selected.", "quantifier": "all images, all filter settings, any variation measure", "why_tests_cant": "the filters interact through a mutable tree walked in a fixed order", "anchors": ["vl/mser.c: vl_mser_process, vl_mser_get_stats"]}
{"id": "C22", "title": "Integer k-means push: Elkan equals brute force", "statement": "vl_ikm_push with the Elkan method assigns every datum to the same center as the brute-force method and as vl_ikm_push_one: the first center at minimal squared distance. This holds after vl_ikm_init and after vl_ikm_train, provided the distances are below VL_IKMACC_MAX.", "quantifier": "all centers, all data, all dimensions and positive numbers of centers, any earlier training", "why_tests_cant": "the triangle-inequality pruning with integer rounding is only unsound for particular distances", "anchors": ["vl/ikmeans.c: vl_ikm_push, vl_ikm_push_one", "vl/ikmeans_elkan.tc: vl_ikm_push_elkan"]}
{"id": "C23", "title": "Hierarchical k-means paths are valid", "statement": "vl_hikm_push on a trained tree yields, for each training datum, a path of the tree's depth whose entries are the indexes of the first nearest center at each node, all smaller than K. The same holds for any datum if no node of the tree is without centers. Training and pushing access no memory out of bounds.", "quantifier": "all non-empty training sets of bytes, branching factors, depths, random orders, both methods, contents of fresh memory", "why_tests_cant": "degenerate partitions arise only for particular data", "anchors": ["vl/hikmeans.c: vl_hikm_train, vl_hikm_push, xmeans"]}
{"id": "C24", "title": "AIB merges the cheapest pair at every step", "statement": "Each step of vl_aib_process merges a pair of remaining clusters whose information loss is minimal among all remaining pairs, although losses are cached and only partly recomputed.", "quantifier": "all initial joint distributions and all steps", "why_tests_cant": "cache invalidation is an invariant over the merge history", "anchors": ["vl/aib.c: vl_aib_process, vl_aib_min_beta, vl_aib_update_beta, vl_aib_merge_nodes"]}
{"id": "C25", "title": "AIB outputs a binary merge tree and conserves mass", "statement": "The parents array returned by vl_aib_get_parents encodes a binary tree over the input values of positive probability, if there are two or more (each internal node has exactly two children, one root of parent zero), and the total probability mass and the class marginals are unchanged by every merge.", "quantifier": "all inputs and all numbers of steps", "why_tests_cant": "structure of the array depends on the whole merge history", "anchors": ["vl/aib.c: vl_aib_process, vl_aib_merge_nodes, vl_aib_get_parents"]}
{"id": "C26", "title": "The library lock is a recursive mutex", "statement": "Under any interleaving of any number of threads using vl_lock_state and vl_unlock_state in a balanced way, at most one thread is inside the locked region, a thread can re-enter, the lock is free once every thread has unlocked as often as it locked, and no waiting thread is left asleep while the lock is free.", "quantifier": "all numbers of threads, all schedules, all nesting depths", "why_tests_cant": "schedules are unbounded", "anchors": ["vl/generic.c: vl_lock_state, vl_unlock_state"]}
{"id": "C27", "title": "Per-thread state is private", "statement": "vl_set_last_error, vl_get_rand and the timer of one thread never affect what another thread observes, and the recorded error message is the given message truncated to the buffer, NUL-terminated.", "quantifier": "all interleavings of API calls of all threads", "why_tests_cant": "interleavings are unbounded", "anchors": ["vl/generic.c: vl_get_thread_specific_state, vl_set_last_error, vl_get_last_error, vl_get_last_error_message"]}
{"id": "C28", "title": "Integral image gives rectangle sums", "statement": "After vl_imintegral_* the four-corner combination of the output equals the sum of the input over the corresponding rectangle, for every rectangle and any strides.", "quantifier": "all images, sizes, strides and rectangles", "why_tests_cant": "unbounded sizes and all rectangles", "anchors": ["vl/imopv.c: vl_imintegral_f, vl_imintegral_d, vl_imintegral_i32, vl_imintegral_ui32"]}
{"id": "C29", "title": "Column convolution computes the padded, subsampled convolution", "statement": "vl_imconvcol_v writes at each output the sum over the filter of filter times image with the chosen padding, for every filter support with begin <= 0 <= end, every step and with or without transposition, reading only inside the image and writing each output once.", "quantifier": "all images, filters, supports, steps and flags", "why_tests_cant": "boundary chunk logic depends on the relation of three unbounded sizes", "anchors": ["vl/imopv.c: vl_imconvcol_vf, vl_imconvcol_vd"]}
{"id": "C30", "title": "Triangular convolution equals convolution with the triangle", "statement": "vl_imconvcoltri_* computes, in exact arithmetic, the convolution of each column with the normalised triangular kernel under the chosen padding, also when the kernel is larger than the image.", "quantifier": "all columns, kernel sizes, steps, padding modes", "why_tests_cant": "the double-integration trick mixes running sums whose boundary corrections depend on sizes", "anchors": ["vl/imopv.c: vl_imconvcoltri_f, vl_imconvcoltri_d"]}
{"id": "C31", "title": "Distance transform is the lower envelope", "statement": "For a coefficient greater than VL_EPSILON or equal to zero, vl_image_distance_transform gives every pixel x of a row the minimum over u of f(u) + c (x - u - o)^2 and, when indexes are given, the index of a pixel attaining it; it works in place, for any strides addressing distinct pixels, and changes no other element.", "quantifier": "all images of finite values, offsets, sizes and strides, all coefficients above VL_EPSILON or zero", "why_tests_cant": "the envelope stack depends on the whole row", "anchors": ["vl/imopv.c: vl_image_distance_transform_d, vl_image_distance_transform_f"]}
{"id": "C32", "title": "Quick shift links form a forest of increasing density", "statement": "After vl_quickshift_process every non-root pixel is linked to a pixel within the search radius of strictly higher density that is the closest such pixel, roots link to themselves, all links stay in the image, and following links always ends at a root.", "quantifier": "all images, densities, kernel sizes and radii", "why_tests_cant": "acyclicity is a global property of unbounded images", "anchors": ["vl/quickshift.c: vl_quickshift_process"]}
{"id": "C33", "title": "The SLIC clean-up merges small regions and keeps large ones", "statement": "In the last phase of vl_slic_segment pixels of one 4-connected region of the clustering stay together, regions of at least minRegionSize pixels keep their label, every region of the result has at least minRegionSize pixels or contains the first pixel, every region takes the label of one of its pixels, and if no region is small nothing changes. The fresh memory used does not matter.", "quantifier": "All image sizes, labelings and minimum sizes.", "why_tests_cant": "Needs every labeling and region shape.", "anchors": ["vl/slic.c:339-410"]}
{"id": "C34", "title": "LBP mapping and transposition", "statement": "The LBP table sends the 56 strings with one run of ones to bin 7i+(j-1), the constant strings to bin 56 and all others to bin 57. vl_lbp_process never leaves the image and the features, and each feature is the normalised bilinear weight of the interior pixels of its bin. Processing the transposed image in transposed mode yields the transposed features.", "quantifier": "all 256 strings, both modes, all images, sizes and cell sizes", "why_tests_cant": "relation between two modes over all patterns, images and cell sizes", "anchors": ["vl/lbp.c: _vl_lbp_init_uniform, vl_lbp_new, vl_lbp_process"]}
{"id": "C35", "title": "LIOP permutation index is a bijection", "statement": "get_permutation_index maps the n! permutations of 0..n-1 one to one onto 0..n!-1, so distinct neighbour orderings never share a bin, and the descriptor bin is always inside the descriptor.", "quantifier": "all n and all permutations", "why_tests_cant": "n! permutations for every n", "anchors": ["vl/liop.c: get_permutation_index, factorial, vl_liopdesc_process"]}
{"id": "C36", "title": "HOG flip permutation", "statement": "vl_hog_get_permutation is an involution on the feature channels. It maps each directed orientation channel to the channel of pi minus its angle, undirected channels likewise, and exchanges the block channels on the left with those on the right. If the cell histograms of an object are those of another one mirrored about a vertical axis, the extracted features are those of the other mirrored and permuted.", "quantifier": "all numbers of orientations, both variants, plain and transposed, all histograms and array sizes", "why_tests_cant": "all numbers of orientations and all histograms", "anchors": ["vl/hog.c: vl_hog_new, vl_hog_get_permutation, vl_hog_extract"]}
{"id": "C37", "title": "HOG objects can be reused", "statement": "Putting an image or a polar field in a HOG object leaves it in the same state whatever was done with it before. The state after an image is the bilinear histogram of the strongest gradients by closest orientation, and the features extracted next are the documented block normalised ones.", "quantifier": "all histories of calls, all images and parameters", "why_tests_cant": "depends on hidden state left by earlier calls", "anchors": ["vl/hog.c: vl_hog_prepare_buffers, vl_hog_put_image, vl_hog_extract"]}
{"id": "C38", "title": "Dense SIFT frame grid", "statement": "Whatever setters were called and images processed before, vl_dsift_process never leaves its buffers; the number of frames vl_dsift_get_keypoint_num reports already before processing is the number of grid positions whose bins all lie inside the bounding box, every frame is computed, and its center, norm and descriptor are the interpolated, windowed and normalised gradient histograms of the image, independent of earlier calls.", "quantifier": "all image sizes of at least 2x2, bounds in the image, positive steps and geometries, both windows, all histories", "why_tests_cant": "integer division at boundaries over unbounded sizes, all histories of a reused filter", "anchors": ["vl/dsift.c: _vl_dsift_update_buffers, _vl_dsift_alloc_buffers, _vl_dsift_with_flat_window, _vl_dsift_with_gaussian_window, vl_dsift_process"]}
{"id": "C39", "title": "Dense SIFT descriptor transposition", "statement": "vl_dsift_transpose_descriptor is a bijection of descriptor entries and applying it twice (with swapped bin counts) is the identity.", "quantifier": "all descriptors and bin counts with numBinT divisible by 4 for the orientation semantics", "why_tests_cant": "all sizes", "anchors": ["vl/dsift.h: vl_dsift_transpose_descriptor"]}
{"id": "C40", "title": "All-pairs evaluation fills the whole matrix", "statement": "For a positive dimension vl_eval_vector_comparison_on_all_pairs writes at i + j numX the comparison of X_i and Y_j for every pair and nothing else, and with Y = NULL and a symmetric function the matrix of X against itself; with dimension zero or no vectors it writes nothing.", "quantifier": "all numbers of vectors and dimensions, all comparison functions", "why_tests_cant": "index arithmetic of two moving pointers over all sizes", "anchors": ["vl/mathop.c: vl_eval_vector_comparison_on_all_pairs_f, vl_eval_vector_comparison_on_all_pairs_d"]}
{"id": "C41", "title": "SIMD and scalar kernels agree", "statement": "In exact arithmetic the functions returned by vl_get_vector_comparison_function and vl_get_vector_3_comparison_function return the same value with and without SSE2 and AVX, for every dimension and alignment; the SIMD accumulation steps of the Gaussian mixture code add W X and W (X - Y)^2 to exactly the first dimension elements.", "quantifier": "all dimensions, vectors, alignments, processors and both precisions", "why_tests_cant": "tail handling depends on the dimension modulo the register size and on alignment", "anchors": ["vl/mathop_sse2.c", "vl/mathop_avx.c", "vl/mathop.c: vl_get_vector_comparison_function_f, vl_get_vector_3_comparison_function_f"]}
{"id": "C42", "title": "k-means quantisation returns a nearest center", "statement": "vl_kmeans_quantize (brute force) assigns each datum to the first center at minimal distance and reports that distance; the Elkan refinement keeps, at every iteration, each datum assigned to a center at minimal distance, the centers being those of the clusters of the iteration before.", "quantifier": "all data, centers, dimensions, L1 and L2 metrics, all iterations; in exact arithmetic, the square root may be any function that never underestimates; for Elkan a positive dimension and no more centers than data", "why_tests_cant": "bound maintenance in Elkan is an invariant over iterations", "anchors": ["vl/kmeans.c: vl_kmeans_quantize, _vl_kmeans_quantize_f, _vl_kmeans_refine_centers_elkan_f"]}
{"id": "C43", "title": "k-means energy never increases", "statement": "In exact arithmetic the energy reported at successive iterations of the Lloyd, ANN and Elkan refinements never increases, for L2 means and L1 medians, including when empty clusters are restarted, and the last one is the energy of the returned centers and assignments; no division by zero occurs.", "quantifier": "all data, initial centers, restart choices, answers of the approximate neighbor search, numbers of iterations, with no more centers than data", "why_tests_cant": "convergence claims quantify over all data and iterations", "anchors": ["vl/kmeans.c: _vl_kmeans_refine_centers_lloyd_f, _vl_kmeans_refine_centers_ann_f, _vl_kmeans_refine_centers_elkan_f, _vl_kmeans_quantize_f"]}
{"id": "C44", "title": "k-means centers are means or medians", "statement": "After each refinement step every coordinate of every non-empty cluster's center is the mean (L2) or a median (L1) of that coordinate over the cluster, and an empty cluster's center is a datum. For L1 with Lloyd or ANN this holds of the steps with no empty cluster, for Elkan and L2 always.", "quantifier": "all data and assignments, no more centers than data", "why_tests_cant": "a control-flow interaction with empty clusters that typical tests do not hit", "anchors": ["vl/kmeans.c: _vl_kmeans_refine_centers_lloyd_f, _vl_kmeans_refine_centers_ann_f, _vl_kmeans_refine_centers_elkan_f"]}
{"id": "C45", "title": "k-means repetitions keep the best run", "statement": "vl_kmeans_cluster returns the smallest energy over the repetitions and leaves the centers of a repetition that attained it.", "quantifier": "all numbers of repetitions and run outcomes", "why_tests_cant": "depends on the order of energies over repetitions", "anchors": ["vl/kmeans.c: vl_kmeans_cluster"]}
{"id": "C46", "title": "VLAD encodes residual sums", "statement": "Unnormalised vl_vlad_encode returns, for each cluster, the assignment-weighted sum of residuals to its mean, independently of the order of the data and of the thread schedule over clusters.", "quantifier": "all data, assignments and orders", "why_tests_cant": "schedules and data orders", "anchors": ["vl/vlad.c: vl_vlad_encode"]}
{"id": "C47", "title": "Homogeneous kernel map stays in its tables", "statement": "vl_homogeneouskernelmap_new fills its table within its block, retaining order+1 increasing frequencies. vl_homogeneouskernelmap_evaluate writes exactly 2n+1 values at multiples of the stride and reads only inside the table for every finite input, also with rounded subtractions. It yields zeros for |x| < 2^-19 and |x| >= 2^8, and otherwise the linear interpolation of the features of the two grid points around |x|, with the sign of x.", "quantifier": "all inputs, orders, kernels and tables", "why_tests_cant": "all real inputs", "anchors": ["vl/homkermap.c: vl_homogeneouskernelmap_new, vl_homogeneouskernelmap_evaluate_d"]}
{"id": "C48", "title": "Scale space geometry equality is an equality", "statement": "vl_scalespacegeometry_is_equal(a,b) holds exactly when all fields of the two geometries are equal; in particular a geometry equals itself.", "quantifier": "all geometries", "why_tests_cant": "all field values", "anchors": ["vl/scalespace.c: vl_scalespacegeometry_is_equal"]}
{"id": "C49", "title": "Downsampling picks every 2^d-th pixel", "statement": "Copying and downsampling an image by 2^d, as used by the scale space and by SIFT, writes floor(width/2^d) columns by ceil(height/2^d) rows, densely from the start of the destination, each the source pixel at the scaled position, and changes nothing else.", "quantifier": "all widths, heights, d and pixel values, destinations large enough", "why_tests_cant": "sizes not divisible by the step", "anchors": ["vl/scalespace.c: copy_and_downsample", "vl/sift.c: copy_and_downsample"]}
{"id": "C50", "title": "Gaussian elimination solves the system", "statement": "If vl_gaussian_elimination(M=[A,B]) returns success then, in exact arithmetic, the trailing columns hold the only X with A X = B; the 2x2 and 3x3 solvers return the only solution vector. If it reports failure then A is singular up to 1e-10: some vector with an entry 1 is taken to a vector with all entries below 1e-10 in absolute value.", "quantifier": "all sizes and matrices", "why_tests_cant": "all matrices of all sizes", "anchors": ["vl/mathop.c: vl_gaussian_elimination, vl_solve_linear_system_2, vl_solve_linear_system_3"]}
{"id": "C51", "title": "Rodrigues formula", "statement": "For every vector vl_rodrigues writes an orthogonal matrix of determinant one that keeps the vector; if the norm is at least 1e-6 the matrix turns every vector about that axis by the norm; and vl_irodrigues recovers the vector when its norm is at least 1e-6 and at most pi and the sine of the norm is at least 1e-6.", "quantifier": "all vectors of reals", "why_tests_cant": "all real inputs", "anchors": ["vl/rodrigues.c: vl_rodrigues, vl_irodrigues"]}
{"id": "C52", "title": "SIFT scale space depends only on the current image", "statement": "After vl_sift_process_first_octave on a new image, a filter with any history gives in every octave the same Gaussian levels, octave index and size as a fresh filter given that image, with no keypoints yet; vl_sift_detect then finds the same keypoints; and the gradients, orientations and descriptors are the same in every octave other than the one whose gradients it computed last before.", "quantifier": "all parameters, histories, images and octaves", "why_tests_cant": "stale buffers and cached filters show up only for particular call histories", "anchors": ["vl/sift.c: vl_sift_process_first_octave, vl_sift_process_next_octave, vl_sift_detect, update_gradient, _vl_sift_smooth, vl_sift_calc_keypoint_orientations, vl_sift_calc_keypoint_descriptor"]}
{"id": "C53", "title": "SVM duality gap is a valid certificate", "statement": "During SDCA training with the hinge, squared hinge, L1 or L2 loss the model always equals the dual combination of the data, the reported statistics are those of the model, and the reported dual objective never exceeds the objective of any model; so the reported objective is within the reported gap of the optimum, and training that reports convergence is within epsilon of it. Training stops after at most the maximum number of iterations.", "quantifier": "all data, labels (+-1 for the hinge losses), weights, sample orders, iterations", "why_tests_cant": "invariant over unbounded runs and a bound over all models", "anchors": ["vl/svm.c: _vl_svm_sdca_train, _vl_svm_update_statistics, vl_svm_hinge_loss, vl_svm_hinge_conjugate_loss, vl_svm_hinge2_conjugate_loss, vl_svm_l1_conjugate_loss, vl_svm_l2_conjugate_loss", "vl/svmdataset.c: _vl_svmdataset_inner_product, _vl_svmdataset_accumulate"]}
{"id": "C54", "title": "SDCA steps never decrease the dual objective", "statement": "Each coordinate update of the hinge, squared hinge, L1 and L2 losses is optimal for the one-dimensional dual problem, so no other value of that dual variable gives a larger dual objective and the dual objective never decreases.", "quantifier": "all states, samples and parameters", "why_tests_cant": "all real inputs and unbounded runs", "anchors": ["vl/svm.c: vl_svm_hinge_dca_update, vl_svm_hinge2_dca_update, vl_svm_l1_dca_update, vl_svm_l2_dca_update, _vl_svm_sdca_train"]}
{"id": "C55", "title": "SGD scaling factor is transparent", "statement": "Training by SGD with the factored representation gives the same model, bias and scores as the plain update w <- (1 - rate*lambda) w - rate*gradient, when the bias learning rate is not a step number t + t0 (for instance when it is less than 2).", "quantifier": "all data, losses, starting models and iteration counts", "why_tests_cant": "product of factors over unbounded iterations; zero factors at particular steps", "anchors": ["vl/svm.c: _vl_svm_sgd_train"]}
{"id": "C56", "title": "Permuting indexes is safe for every array size", "statement": "vl_rand_permute_indexes never indexes outside the array for any array size expressible as vl_size.", "quantifier": "all array sizes, all generator outputs", "why_tests_cant": "needs arrays of more than 2^31 entries and particular draws", "anchors": ["vl/random.c: vl_rand_permute_indexes"]}
{"id": "C57", "title": "The documented protocol prefixes are the recognised ones", "statement": "Exactly the documented prefixes ascii:// and binary:// select the ASCII and binary protocols, any other prefix is unknown, and the name of an unknown protocol is the empty string.", "quantifier": "all strings", "why_tests_cant": "a matcher that compares only a prefix is wrong on strings no test enumerates", "anchors": ["vl/stringop.c: vl_string_parse_protocol, vl_string_protocol_name"]}
{"id": "C58", "title": "A PGM file written by the library can be read back", "statement": "vl_pgm_read_new on a file written by vl_pgm_write succeeds and returns the same width, height and pixels.", "quantifier": "all image sizes and pixel contents", "why_tests_cant": "file contents are unbounded; tests only read sample files", "anchors": ["vl/pgm.c: vl_pgm_write, vl_pgm_read_new, vl_pgm_extract_head"]}
{"id": "C59", "title": "Byte swapping works in place", "statement": "vl_swap_host_big_endianness_2, _4 and _8 with dst equal to src reverse the bytes on a little-endian host.", "quantifier": "all byte values", "why_tests_cant": "2^64 values", "anchors": ["vl/host.h: vl_swap_host_big_endianness_8, vl_swap_host_big_endianness_4, vl_swap_host_big_endianness_2"]}
{"id": "C60", "title": "Option parsing stops at a double dash and accepts a single dash", "statement": "The argument -- ends option processing with all following arguments left for the program, and a lone - is accepted as an argument.", "quantifier": "all argument vectors", "why_tests_cant": "argument vectors are unbounded", "anchors": ["vl/getopt_long.c: getopt_long"]}
{"id": "C61", "title": "Building a kd-forest survives a rounded mean", "statement": "With VL_KDTREE_MEAN, vl_kdforest_build terminates even if the mean computed in floating point is smaller than all the data of a node.", "quantifier": "all data", "why_tests_cant": "needs data whose computed mean is rounded below the smallest value, such as ten copies of 0.1", "anchors": ["vl/kdtree.c: vl_kdtree_build_recursively"]}
{"id": "C62", "title": "Exact search with the L1 distance", "statement": "Without comparison limit, queries of a forest created with VlDistanceL1 return the true L1 nearest neighbours.", "quantifier": "all data and queries", "why_tests_cant": "the branch bounds are squared differences; only some geometries expose the mismatch", "anchors": ["vl/kdtree.c: vl_kdforest_query_recursively, vl_kdforest_new"]}
{"id": "C63", "title": "A searcher survives rebuilding its forest", "statement": "A searcher created before vl_kdforest_build is called again can still be used after it.", "quantifier": "all data sets", "why_tests_cant": "the overflow of the old buffers is silent on most runs", "anchors": ["vl/kdtree.c: vl_kdforest_new_searcher, vl_kdforest_build, vl_kdforestsearcher_query"]}
{"id": "C64", "title": "MSER variation compares with the true top region", "statement": "The variation of each extremal region is computed from its area and that of the largest region that contains it and whose intensity is at most delta above, although the search starts from a shortcut maintained by earlier regions.", "quantifier": "all images and all values of delta", "why_tests_cant": "the shortcut is wrong only for particular trees", "anchors": ["vl/mser.c: vl_mser_process"]}
{"id": "C65", "title": "MSER ellipsoids are the moments of the regions", "statement": "In exact arithmetic, the vector computed by vl_mser_ell_fit for each returned region holds the mean of each coordinate and the covariance of each pair of coordinates over the pixels of the region.", "quantifier": "all images of any number of dimensions", "why_tests_cant": "the sums are propagated along the recorded joins, whose order must place every region before its parent", "anchors": ["vl/mser.c: vl_mser_ell_fit"]}
{"id": "C66", "title": "Distance transform for tiny positive coefficients", "statement": "vl_image_distance_transform returns the minimum over u of f(u) + c (x - u - o)^2 also when 0 < c <= VL_EPSILON.", "quantifier": "all images and all such coefficients", "why_tests_cant": "tests use coefficients of order one", "anchors": ["vl/imopv.c: vl_image_distance_transform_d, vl_image_distance_transform_f"]}
{"id": "C67", "title": "Reverse character search", "statement": "vl_string_find_char_rev returns the last occurrence of the character in the range [beginning, end), or NULL exactly when there is none, and reads nothing outside the range.", "quantifier": "all strings, ranges and characters", "why_tests_cant": "all ranges including empty ones and boundary occurrences", "anchors": ["vl/stringop.c: vl_string_find_char_rev"]}
{"id": "C68", "title": "Vector comparisons are the documented formulas", "statement": "On non-negative vectors every comparison function (l1, l2, chi2, Hellinger and Jensen-Shannon distances and kernels) returns the documented sum in exact arithmetic, for every processor and alignment; the Hellinger kernel is the sum of sqrt(x y).", "quantifier": "all dimensions and non-negative vectors", "why_tests_cant": "rewritten formulas with logarithms and zero denominators", "anchors": ["vl/mathop.c: _vl_distance_js_f, _vl_kernel_js_f, _vl_distance_hellinger_f, _vl_kernel_l1_f, _vl_kernel_chi2_f"]}
{"id": "C69", "title": "Distances come from kernels", "statement": "For the five pairs of distance and kernel, d(x,y) = k(x,x) + k(y,y) - k(x,y) - k(y,x) on non-negative vectors, as documented.", "quantifier": "all dimensions and non-negative vectors", "why_tests_cant": "an identity over all vectors", "anchors": ["vl/mathop.c: mathop documentation, vl_get_vector_comparison_function_f"]}
{"id": "C70", "title": "Documented Hellinger kernel", "statement": "VlKernelHellinger evaluates the documented sum of 2 sqrt(x_i y_i).", "quantifier": "all vectors", "why_tests_cant": "documentation is not executable", "anchors": ["vl/mathop.c: _vl_kernel_hellinger_f"]}
{"id": "C71", "title": "A floor-sized destination suffices for downsampling", "statement": "As documented, the destination of copy_and_downsample needs only floor(width/2^d) by floor(height/2^d) pixels, the size of the next octave.", "quantifier": "all widths, heights and d", "why_tests_cant": "depends on heights not divisible by the step and on what follows the buffer", "anchors": ["vl/scalespace.c: copy_and_downsample", "vl/scalespace.c: vl_scalespace_new_with_geometry", "vl/sift.c: copy_and_downsample"]}
{"id": "C72", "title": "Doubling is linear interpolation, in the scale space and in SIFT", "statement": "Upsampling an image once gives the image of twice the size whose even pixels are the source pixels and whose other pixels are the averages of their two or four neighbours, the border being continued; the scale space and SIFT (first octave -1) compute the same image.", "quantifier": "all images of at least one pixel, exact arithmetic", "why_tests_cant": "all sizes, equality of two different loops", "anchors": ["vl/scalespace.c: copy_and_upsample", "vl/sift.c: copy_and_upsample_rows", "vl/sift.c: vl_sift_process_first_octave"]}
{"id": "C73", "title": "SIFT doubles the image once per negative octave", "statement": "With first octave -n the first SIFT level (before smoothing) is the image doubled n times by linear interpolation.", "quantifier": "all image sizes and n", "why_tests_cant": "needs n at least 2 and images that are not square", "anchors": ["vl/sift.c: vl_sift_process_first_octave", "vl/sift.c: copy_and_upsample_rows"]}
{"id": "C74", "title": "LBP bits follow the documented order", "statement": "As documented, pixels are scanned anti-clockwise from the right: the second bit is one exactly when I(x+1,y-1) > I(x,y).", "quantifier": "all images and pixels", "why_tests_cant": "a statement about every image", "anchors": ["vl/lbp.c: class documentation, vl_lbp_process"]}
{"id": "C75", "title": "Null period means default period", "statement": "As documented, vl_homogeneouskernelmap_new replaces a negative or null period by a default value.", "quantifier": "all periods, kernels, windows and orders", "why_tests_cant": "documentation against code over all parameters", "anchors": ["vl/homkermap.c: vl_homogeneouskernelmap_new"]}
{"id": "C76", "title": "HOG extraction is repeatable", "statement": "Calling vl_hog_extract twice after putting an image returns the same features.", "quantifier": "all images and parameters", "why_tests_cant": "depends on hidden state left by the first call", "anchors": ["vl/hog.c: vl_hog_extract"]}
{"id": "C77", "title": "HOG polar fields vote like gradients", "statement": "vl_hog_put_polar_field with bilinear orientations shares the modulus of each gradient between the two closest orientations, in amounts that sum to the modulus, as vl_hog_put_image does.", "quantifier": "all fields", "why_tests_cant": "a numeric weight, visible only against the definition", "anchors": ["vl/hog.c: vl_hog_put_polar_field"]}
{"id": "C78", "title": "L1 Lloyd steps with an empty cluster update all coordinates", "statement": "In an L1 Lloyd or ANN step that restarts an empty cluster, every coordinate of the other centers is still set to a median of its cluster.", "quantifier": "all data and assignments with an empty cluster", "why_tests_cant": "needs an empty cluster and dimension at least two", "anchors": ["vl/kmeans.c: _vl_kmeans_refine_centers_lloyd_f, _vl_kmeans_refine_centers_ann_f"]}
{"id": "C79", "title": "k-means refinement is memory safe for any number of centers", "statement": "A refinement step stays inside its buffers whatever the numbers of centers and data.", "quantifier": "all numbers of centers and data", "why_tests_cant": "out-of-bounds accesses may go unnoticed in tests", "anchors": ["vl/kmeans.c: _vl_kmeans_refine_centers_lloyd_f"]}
{"id": "C80", "title": "Random seeding takes distinct data", "statement": "vl_kmeans_init_centers_with_rand_data stays in bounds and sets the centers to data with pairwise distinct indexes; if the data contain numCenters different points, the centers are pairwise different points.", "quantifier": "all data, all permutations returned by the shuffle, numCenters at most numData", "why_tests_cant": "depends on the interaction of the duplicates with the random order", "anchors": ["vl/kmeans.c: _vl_kmeans_init_centers_with_rand_data_f"]}
{"id": "C81", "title": "k-means++ seeding takes distinct data", "statement": "vl_kmeans_init_centers_plus_plus stays in bounds and sets the centers to data; if the data contain numCenters different points and no random draw is zero, the centers are pairwise different points.", "quantifier": "all data, all random draws in (0,1], all first indexes", "why_tests_cant": "random choices", "anchors": ["vl/kmeans.c: _vl_kmeans_init_centers_plus_plus_f"]}
{"id": "C82", "title": "k-means++ never repeats a point for any random draw", "statement": "The k-means++ centers are pairwise different whenever the data contain numCenters different points, whatever vl_rand_real1 returns in [0,1].", "quantifier": "all data, all draws in [0,1]", "why_tests_cant": "a draw of exactly zero is rare", "anchors": ["vl/kmeans.c: _vl_kmeans_init_centers_plus_plus_f", "vl/random.h: vl_rand_real1"]}
{"id": "C83", "title": "Elkan stops at a fixed point", "statement": "When the Elkan refinement stops before the maximum number of iterations, every datum is at a nearest center and every center is the mean (L2) or a median (L1) of its cluster.", "quantifier": "all data, initial centers, positive dimension, no more centers than data", "why_tests_cant": "the stopping test relies on the bounds of all previous iterations", "anchors": ["vl/kmeans.c: _vl_kmeans_refine_centers_elkan_f"]}
{"id": "C84", "title": "The root of the AIB tree has parent zero", "statement": "vl_aib_get_parents gives zero as the parent of the root of the tree, as documented, whatever the input table.", "quantifier": "all joint distributions", "why_tests_cant": "degenerate tables", "anchors": ["vl/aib.c: vl_aib_process"]}
{"id": "C85", "title": "AIB costs drop by the losses of the merges", "statement": "The costs returned by vl_aib_get_costs start with the mutual information of the input; each next cost is the previous one minus the loss of the merged pair; entries after the last merge are not a number.", "quantifier": "all joint distributions, any logarithm turning products into sums", "why_tests_cant": "relates an incrementally minimised quantity to one recomputed from the merged table", "anchors": ["vl/aib.c: vl_aib_process, vl_aib_calculate_information, vl_aib_update_beta"]}
{"id": "C86", "title": "Dense SIFT of the transposed image", "statement": "As dsift.h promises, the dense SIFT descriptors of the transposed image, with the settings exchanged, are the transposed descriptors (vl_dsift_transpose_descriptor) of the frames of the image at exchanged coordinates, if four divides the number of orientations.", "quantifier": "all images, histories, settings, both windows, all direction functions that reflect with the gradient", "why_tests_cant": "an identity between two runs over all images", "anchors": ["vl/dsift.c: vl_dsift_process", "vl/dsift.h: vl_dsift_transpose_descriptor"]}
{"id": "C87", "title": "Dense SIFT transposition with any number of orientations", "statement": "transpose(dsift(I,x,y)) = dsift(transpose(I),y,x), without conditions on the number of orientations.", "quantifier": "all numbers of orientations", "why_tests_cant": "only counts that four does not divide fail", "anchors": ["vl/dsift.h: vl_dsift_transpose_descriptor"]}
{"id": "C88", "title": "Dense SIFT of thin images", "statement": "vl_dsift_process stays within the image for every size vl_dsift_new accepts, including images one pixel wide.", "quantifier": "all image sizes", "why_tests_cant": "the read past the end is silent", "anchors": ["vl/dsift.c: vl_dsift_process"]}
{"id": "C89", "title": "SGD works for every positive bias learning rate", "statement": "Stochastic gradient descent performs its update for every positive bias learning rate.", "quantifier": "all positive bias learning rates", "why_tests_cant": "a factor becomes zero at one particular step", "anchors": ["vl/svm.c: _vl_svm_sgd_train"]}
{"id": "C90", "title": "Convergence certificate survives a change of lambda", "statement": "When training is run again after vl_svm_set_lambda and reports convergence, the objective is within epsilon of the optimum for the new lambda.", "quantifier": "all sequences of vl_svm_train and vl_svm_set_lambda", "why_tests_cant": "needs the interaction of two calls with the dual variables kept in between", "anchors": ["vl/svm.c: vl_svm_set_lambda, _vl_svm_sdca_train"]}
{"id": "C91", "title": "SVM losses, conjugates and derivatives agree", "statement": "For the hinge, squared hinge, L1 and L2 losses the conjugate is the tight lower bound z u - c(u) <= l(z) wherever it is finite, and the derivative is a subgradient of the loss at every score.", "quantifier": "all scores, slopes and labels (+-1 for the hinge losses)", "why_tests_cant": "all real inputs, including the kinks", "anchors": ["vl/svm.c: vl_svm_hinge_loss, vl_svm_hinge_loss_derivative, vl_svm_hinge_conjugate_loss, vl_svm_hinge2_loss, vl_svm_l1_loss, vl_svm_l2_loss"]}
{"id": "C92", "title": "Iteration number warm-starts SGD", "statement": "vl_svm_set_iteration_number called before SGD training slows down the learning rate, as its documentation says.", "quantifier": "all iteration numbers", "why_tests_cant": "absence of an effect over all runs", "anchors": ["vl/svm.c: vl_svm_set_iteration_number, _vl_svm_sgd_train"]}
{"id": "C93", "title": "Integer k-means stops at a fixed point", "statement": "vl_ikm_train stops within max_niters passes without an access out of bounds. If it stops because no assignment changed, every datum is assigned to a center at least distance and every center is the truncated mean of the data assigned to it (zero if there are none). With Lloyd's method this needs one update of the centers, and the assignments are the first nearest centers in any case.", "quantifier": "all byte data, centers, K at most N, dimensions, limits, both methods", "why_tests_cant": "Elkan's integer bounds are updated with rounded square roots and an unsound bound shows only for particular displacements", "anchors": ["vl/ikmeans.c: vl_ikm_train", "vl/ikmeans_elkan.tc: vl_ikm_train_elkan", "vl/ikmeans_lloyd.tc: vl_ikm_train_lloyd"]}
{"id": "C94", "title": "Initial integer k-means centers are distinct data", "statement": "vl_ikm_init_rand_data makes every center a copy of a datum. If the data contains K different vectors then the K centers are pairwise different.", "quantifier": "all data, all random orders, any K", "why_tests_cant": "which data are passed over depends on the random order and on the position of duplicates", "anchors": ["vl/ikmeans_init.tc: vl_ikm_init_rand_data"]}
{"id": "C95", "title": "Any datum can be pushed down a trained tree", "statement": "vl_hikm_push on a trained tree gives every datum, in the training set or not, a valid path.", "quantifier": "all trained trees and data", "why_tests_cant": "a node without centers arises only from duplicated training data, and only some queries reach it", "anchors": ["vl/hikmeans.c: vl_hikm_push, xmeans"]}
{"id": "C96", "title": "Elkan's and Lloyd's training agree", "statement": "vl_ikm_train with the Elkan method ends with the same centers as with the Lloyd method when both start from the same centers and both converge.", "quantifier": "all data and centers", "why_tests_cant": "the two differ only when a datum could move to two centers in one pass", "anchors": ["vl/ikmeans_elkan.tc: vl_ikm_train_elkan", "vl/ikmeans.c: documentation, an optimized variant of Lloyd"]}
{"id": "C97", "title": "A center without data is not changed", "statement": "During vl_ikm_train a center to which no data is assigned keeps its value from the previous iteration, as the comment in the code says.", "quantifier": "all data and centers", "why_tests_cant": "the array is cleared before the means are formed and the comment describes the branch as if it were not", "anchors": ["vl/ikmeans_lloyd.tc: vl_ikm_train_lloyd 101-106"]}
{"id": "C98", "title": "Lloyd's training is a function of its inputs", "statement": "The centers produced by vl_ikm_train with the Lloyd method depend only on the data, the initial centers and the limit. This fails only when fresh memory happens to contain the first assignment.", "quantifier": "all contents of fresh memory", "why_tests_cant": "the first comparison reads an uninitialised array", "anchors": ["vl/ikmeans_lloyd.tc: vl_ikm_train_lloyd 38, 68"]}
{"id": "C99", "title": "Training with more centers than data", "statement": "vl_ikm_train is safe for any number of centers.", "quantifier": "all data, K greater than N", "why_tests_cant": "the buffer of counts has N entries and K of them are cleared, which need not crash", "anchors": ["vl/ikmeans_lloyd.tc: vl_ikm_train_lloyd 39, 83", "vl/ikmeans_elkan.tc: vl_ikm_train_elkan 78, 139"]}
{"id": "C100", "title": "Updating integer centers descends the distortion", "statement": "With the assignments fixed, the new centers of vl_ikm_train do not increase the distortion, as the documentation says.", "quantifier": "all data and centers", "why_tests_cant": "truncation of the mean matters only for particular sums", "anchors": ["vl/ikmeans.c: documentation of the Lloyd algorithm", "vl/ikmeans_lloyd.tc: vl_ikm_train_lloyd 92-107"]}
{"id": "C101", "title": "Rodrigues derivatives", "statement": "The 9x3 matrix written by vl_rodrigues holds the partial derivatives of the nine entries in the three coordinates, at every vector of norm above 1e-6 and, for the rotations about the axes, at the null vector. The 3x9 matrix written by vl_irodrigues holds the partial derivatives of the vector in the nine entries, at every matrix of trace between -1 and 3 away from half a turn and from the threshold.", "quantifier": "all vectors and matrices of reals, all 54 partial derivatives", "why_tests_cant": "finite differences only approximate derivatives at sampled points", "anchors": ["vl/rodrigues.c: vl_rodrigues, vl_irodrigues"]}
{"id": "C102", "title": "Every rotation comes from its vector", "statement": "For every rotation matrix whose angle is 0, pi, or has sine at least 1e-6, vl_rodrigues applied to the result of vl_irodrigues gives the matrix back; and every rotation matrix of angle at least 1e-6 is written by vl_rodrigues for some vector of norm at most pi.", "quantifier": "all rotation matrices", "why_tests_cant": "the half turns are a set of measure zero with three code paths chosen by the largest component", "anchors": ["vl/rodrigues.c: vl_irodrigues, vl_rodrigues"]}
{"id": "C103", "title": "Vectors shorter than pi are recovered", "statement": "vl_irodrigues applied to the matrix of vl_rodrigues gives the vector back for every vector of norm at least 1e-6 and below pi.", "quantifier": "all vectors of reals", "why_tests_cant": "the failure needs an angle within 1e-6 of pi", "anchors": ["vl/rodrigues.c: vl_irodrigues"]}
{"id": "C104", "title": "SLIC labels are the closest centers of nearby tiles", "statement": "vl_slic_segment starts each center at a pixel of least edge strength in the 3 x 3 neighbourhood of the middle of its tile, gives every pixel the closest center among those of the tiles whose middle is within regionSize of it in both directions, never accesses memory out of bounds, and returns labels below the number of tiles.", "quantifier": "All positive image sizes and region sizes, all images, numbers of channels and nonnegative regularizers, in exact arithmetic.", "why_tests_cant": "Tests use a few images whose sizes suit the region size.", "anchors": ["vl/slic.c:181-291"]}
{"id": "C105", "title": "SLIC never increases its energy", "statement": "The iterations of vl_slic_segment replace each center by the mean of its pixels (zero if there are none), the sum of the distances of the pixels and their centers never increases from one iteration to the next, and there are at most 100 iterations.", "quantifier": "All images and parameters as in C104, in exact arithmetic.", "why_tests_cant": "A statement about all iterations on all images.", "anchors": ["vl/slic.c:258-333"]}
{"id": "C106", "title": "SLIC regions have the minimum size", "statement": "If the image has at least minRegionSize pixels then every 4-connected region returned by vl_slic_segment has at least minRegionSize pixels.", "quantifier": "All images and parameters.", "why_tests_cant": "Only images in which the first region is small show the exception.", "anchors": ["vl/slic.c:355-376", "vl/slic.c: documentation"]}
{"id": "C107", "title": "SLIC labels are consecutive", "statement": "The labels returned by vl_slic_segment run from 0 to the number of regions minus one, as documented.", "quantifier": "All images and parameters.", "why_tests_cant": "Only images in which a tile loses all its pixels show gaps.", "anchors": ["vl/slic.c:404-410", "vl/slic.c: documentation of vl_slic_segment"]}
{"id": "C108", "title": "SLIC labels are connected regions", "statement": "Two pixels with the same label in the result of vl_slic_segment belong to one 4-connected region of that label.", "quantifier": "All images and parameters.", "why_tests_cant": "Depends on the shape of the clusters.", "anchors": ["vl/slic.c:339-410"]}
{"id": "C109", "title": "SLIC clusters the documented features", "statement": "The distance minimised by vl_slic_segment is the squared Euclidean distance of the documented features, in which coordinates are multiplied by regularizer / regionSize.", "quantifier": "All images and parameters.", "why_tests_cant": "Needs a comparison with the documentation, outputs look plausible with any weight.", "anchors": ["vl/slic.c:259", "vl/slic.c:274-283"]}
{"id": "C110", "title": "Quick-shift densities, repeated processing and defaults", "statement": "vl_quickshift_process adds to the density of each pixel the kernel values of all pixels within ceil(3 sigma) rows and columns of it. Calling it k times on a new object gives k times the density and the same parents and distances as one call. With the default parameters every pixel of an image with both sides below 50 is a root.", "quantifier": "For all images, kernel functions, parameters and numbers of calls.", "why_tests_cant": "Sums over windows clipped at the borders and histories of calls are unbounded.", "anchors": ["vl/quickshift.c: vl_quickshift_process, vl_quickshift_new"]}
{"id": "C111", "title": "A changed kernel size takes effect on the densities", "statement": "After vl_quickshift_set_kernel_size and another vl_quickshift_process the densities are those of the new kernel size.", "quantifier": "For all images, sizes and kernels that do not vanish at zero.", "why_tests_cant": "The densities are accumulated over calls, which a test with one call cannot see.", "anchors": ["vl/quickshift.c: vl_quickshift_process", "vl/quickshift.h: vl_quickshift_set_kernel_size"]}
{"id": "C112", "title": "Medoid-shift parents", "statement": "In medoid mode the parent of a pixel is the first pixel of the window with the greatest score, if that is positive, and the pixel itself otherwise, and the distance is the score. On a new object the parent minimises the sum of weighted squared distances to the pixels of the window whenever some pixel of the window has a smaller sum than the origin of the feature space.", "quantifier": "For all images, kernel functions and parameters.", "why_tests_cant": "The score is a difference of sums over the window that has to be related to distances algebraically.", "anchors": ["vl/quickshift.c: vl_quickshift_process"]}
{"id": "C113", "title": "Medoid-shift parents are medoids", "statement": "In medoid mode the parent of a pixel minimises the sum of weighted squared distances to the pixels of the window.", "quantifier": "For all images and all kernels like the exponential.", "why_tests_cant": "Whether the starting score of zero matters depends on the image.", "anchors": ["vl/quickshift.c: vl_quickshift_process"]}
{"id": "C114", "title": "SIFT octaves hold the Gaussian scale space", "statement": "After starting an image and advancing k times, level s of the octave is the Gaussian scale space of the image: the first octave starts with the image doubled, reduced or copied, smoothed from scale 0.5 to 1.6 where needed; each level is the previous one smoothed with a normalised Gaussian truncated at 4 sigma with repeated borders; each octave starts with level S of the previous one at half the resolution. No access leaves the buffers.", "quantifier": "all image sizes, parameters with non-empty octaves, histories and octaves", "why_tests_cant": "the sizes, the borders and the history give an unbounded number of cases", "anchors": ["vl/sift.c: vl_sift_process_first_octave, vl_sift_process_next_octave, copy_and_upsample_rows, copy_and_downsample, _vl_sift_smooth"]}
{"id": "C115", "title": "SIFT with a first octave of -2 or less", "statement": "For a first octave of -2 or less, the first level is the image at the finer resolution, for images of any aspect ratio.", "quantifier": "all image sizes", "why_tests_cant": "tests use the default first octaves 0 and -1", "anchors": ["vl/sift.c: vl_sift_process_first_octave, copy_and_upsample_rows"]}
{"id": "C116", "title": "SIFT gives exactly O octaves", "statement": "vl_sift_process_first_octave and then vl_sift_process_next_octave succeed exactly O times in all for each image; then vl_sift_process_next_octave returns VL_ERR_EOF and changes nothing.", "quantifier": "all filters and histories", "why_tests_cant": "needs all numbers of octaves and histories", "anchors": ["vl/sift.c: vl_sift_process_first_octave, vl_sift_process_next_octave"]}
{"id": "C117", "title": "SIFT gradients belong to the current image", "statement": "Orientations and descriptors use the gradients of the current octave of the current image, whatever the filter was used for before.", "quantifier": "all histories", "why_tests_cant": "the stale case needs the octave of the last query of one image to be the octave of the first query of the next", "anchors": ["vl/sift.c: update_gradient, vl_sift_process_first_octave"]}
{"id": "C118", "title": "SIFT detection finds all extrema", "statement": "vl_sift_detect does not fail on a filter with an octave. Its candidates are exactly the pixels not on the border, in the S inner levels, whose difference of Gaussians is at least 0.8 of the peak threshold and strictly larger than at all 26 neighbours, or at most minus that and strictly smaller. Each one is moved by at most four one-pixel steps along the Newton offset, or not at all where the Hessian is singular up to 1e-10, without reaching the border. The keypoints are those candidates that pass the peak, edge, offset and range tests, in scan order, and the octave and gradients are unchanged.", "quantifier": "all reachable filters with a non-negative edge threshold", "why_tests_cant": "the walk of the pointer, the in-place compaction and the pivoting depend on every size and value", "anchors": ["vl/sift.c: vl_sift_detect"]}
{"id": "C119", "title": "SIFT keypoints lie in their octave", "statement": "Every keypoint from vl_sift_detect has the index of the current octave, a pixel off the border and a level from 0 to S-1; its position is in [0,(w-1)2^o] x [0,(h-1)2^o] and less than 3/2 pixels from that pixel, its real level is in [-1,S+1] and less than 3/2 from the integer one, and sigma = sigma0 2^(s/S+o) > 0.", "quantifier": "all reachable filters with a non-negative edge threshold", "why_tests_cant": "for all images", "anchors": ["vl/sift.c: vl_sift_detect"]}
{"id": "C120", "title": "SIFT gradients are central differences", "statement": "The gradients used for orientations and descriptors of a level are, for every pixel, the magnitude and angle of the central differences of the Gaussian level, one-sided at the border.", "quantifier": "all octaves of at least 2 by 2 pixels, all levels and pixels", "why_tests_cant": "border pixels and level offsets have separate code, and errors there change only few samples", "anchors": ["vl/sift.c: update_gradient"]}
{"id": "C121", "title": "SIFT orientations are the peaks of the gradient histogram", "statement": "For a keypoint of the current octave that lies on it and has a level 0, ..., S-1, vl_sift_calc_keypoint_orientations returns the angles at the tops of the parabolas through the peaks above 80% of the maximum of the histogram of 36 bins of Gaussian-weighted gradients near the keypoint, smoothed six times, in the order of the bins and the first four if there are more; other keypoints have none, and the rest of the array is unchanged.", "quantifier": "all images, keypoints and array contents", "why_tests_cant": "wrap-around of angles, windows cut off by the border and interpolation between bins are only met by particular keypoints", "anchors": ["vl/sift.c: vl_sift_calc_keypoint_orientations, fast_expn"]}
{"id": "C122", "title": "SIFT orientations are distinct angles", "statement": "vl_sift_calc_keypoint_orientations returns at most four angles; they lie strictly between 0 and 2 pi and are strictly increasing.", "quantifier": "all images and keypoints", "why_tests_cant": "the interpolation could leave the interval only at its ends", "anchors": ["vl/sift.c: vl_sift_calc_keypoint_orientations"]}
{"id": "C123", "title": "The strongest SIFT orientation is returned", "statement": "If a keypoint has orientations, the highest peak of its histogram is among the angles returned.", "quantifier": "all images and keypoints", "why_tests_cant": "needs a keypoint with five peaks of similar height", "anchors": ["vl/sift.c: vl_sift_calc_keypoint_orientations"]}
{"id": "C124", "title": "SIFT keypoint descriptors are weighted gradient histograms", "statement": "For a keypoint of the current octave that lies on it, not in the last row, and has a level 0, ..., S-1, vl_sift_calc_keypoint_descriptor writes 128 numbers: entry 32 i + 8 j + t sums the gradients of the pixels near the keypoint and not on the border, weighted by a Gaussian and linearly by their distance to row i, column j and orientation t in the frame of the keypoint; the histogram is normalised, cut at 0.2 and normalised, or zero if its norm is below the threshold. For other keypoints nothing is written.", "quantifier": "all images, keypoints, angles and parameters", "why_tests_cant": "the indices of the trilinear interpolation, the wrap-around of angles and the window at the border cannot be covered by examples", "anchors": ["vl/sift.c: vl_sift_calc_keypoint_descriptor, normalize_histogram, fast_expn"]}
{"id": "C125", "title": "SIFT raw descriptors are weighted gradient histograms", "statement": "vl_sift_calc_raw_descriptor on gradients of any image computes the same from all pixels of the window, with the norm threshold multiplied by the number of these pixels, for positions on the image and not in the last row; for other positions nothing is written.", "quantifier": "all gradients, positions, scales, angles and parameters", "why_tests_cant": "as for keypoint descriptors; the sample count matters only with a threshold", "anchors": ["vl/sift.c: vl_sift_calc_raw_descriptor"]}
{"id": "C126", "title": "SIFT descriptors are nonnegative and of norm at most one", "statement": "The descriptors written by vl_sift_calc_keypoint_descriptor and vl_sift_calc_raw_descriptor have no negative entries, and their squared norm is at most the relative error factor of the fast square root.", "quantifier": "all gradients of nonnegative magnitude, and all square roots with a relative error bound", "why_tests_cant": "a quantised descriptor overflows only for particular contents", "anchors": ["vl/sift.c: normalize_histogram, vl_sift_calc_keypoint_descriptor, vl_sift_calc_raw_descriptor"]}
{"id": "C127", "title": "SIFT raw and keypoint descriptors agree", "statement": "Without a norm threshold, the descriptor of a keypoint whose window stays off the border equals the raw descriptor computed from the gradients of its level, at its position and scale in the octave.", "quantifier": "all images and keypoints", "why_tests_cant": "two copies of the same loops that differ in details", "anchors": ["vl/sift.c: vl_sift_calc_raw_descriptor, vl_sift_calc_keypoint_descriptor"]}
{"id": "C128", "title": "SIFT's tabulated exponential", "statement": "For arguments from 0 on, except exactly 25, the tabulated exp(-x) is defined: 0 above 25, exact at the multiples of 25/256 and between the two adjacent exact values elsewhere.", "quantifier": "all arguments and increasing exponentials", "why_tests_cant": "the table has 257 entries and the interpolation reads two of them", "anchors": ["vl/sift.c: fast_expn, fast_expn_init"]}
{"id": "C129", "title": "SIFT's tabulated exponential covers [0, 25]", "statement": "The tabulated exponential is defined on its documented range 0, ..., 25, so that descriptors of any valid position, scale and window size are defined.", "quantifier": "all arguments in the range", "why_tests_cant": "needs a pixel whose argument is exactly 25", "anchors": ["vl/sift.c: fast_expn, vl_sift_calc_raw_descriptor"]}
{"id": "C130", "title": "SIFT keypoints from a scale", "statement": "vl_sift_keypoint_init assigns an octave of the filter and a level 0, ..., S-1: octave plus level over S is the logarithm of the scale over the base scale; the integer level is the nearest one, and for scales out of range it is the first level of the first octave or the last level of the last octave. The integer coordinates are the position in the octave rounded to the nearest.", "quantifier": "all filters, positions and scales", "why_tests_cant": "rounding and clamping interact at the ends of octaves", "anchors": ["vl/sift.c: vl_sift_keypoint_init"]}
{"id": "C131", "title": "Detected SIFT keypoints have orientations", "statement": "Every keypoint found by vl_sift_detect is accepted by vl_sift_calc_keypoint_orientations in its octave, and by vl_sift_calc_keypoint_descriptor if and only if its row is less than the height of the octave minus 1.5.", "quantifier": "all images and octaves", "why_tests_cant": "refined positions near the border are rare", "anchors": ["vl/sift.c: vl_sift_detect, vl_sift_calc_keypoint_orientations, vl_sift_calc_keypoint_descriptor"]}
{"id": "C132", "title": "Detected SIFT keypoints have descriptors", "statement": "vl_sift_calc_keypoint_descriptor writes the descriptor of every keypoint found by vl_sift_detect.", "quantifier": "all images and octaves", "why_tests_cant": "needs a keypoint refined to the last half pixel of rows; the array silently keeps its contents", "anchors": ["vl/sift.c: vl_sift_calc_keypoint_descriptor, vl_sift_detect"]}
{"id": "C133", "title": "GMM posteriors and likelihood", "statement": "vl_get_gmm_data_posteriors returns the log-likelihood of the data under the mixture with the given means, diagonal covariances and priors, and stores weight times density over the density of the mixture as posteriors; modes of prior below 1e-6 are left out, and the order in which the parallel loop visits the data does not matter.", "quantifier": "all data, parameters with positive covariances and some prior of at least 1e-6, and orders", "why_tests_cant": "needs exact sums of exponentials for all parameters and schedules", "anchors": ["vl/gmm.c: vl_get_gmm_data_posteriors"]}
{"id": "C134", "title": "GMM posteriors are distributions", "statement": "The posteriors of each datum sum to one, are zero for the modes of prior below 1e-6 and positive for all others.", "quantifier": "all data and parameters with positive covariances and some prior of at least 1e-6", "why_tests_cant": "the underflow protection matters for far away data", "anchors": ["vl/gmm.c: vl_get_gmm_data_posteriors"]}
{"id": "C135", "title": "GMM maximization", "statement": "Maximization sets the mean, covariance and prior of each mode to the weighted mean, the weighted variance or the bound if larger, and the share of the mass, where posteriors below 0.01 / K are left out; neither the old parameters nor the division of the data among threads matters, and a mode has either no mass at all or enough for the division.", "quantifier": "all data, posteriors, old parameters and thread schedules", "why_tests_cant": "races and orders of summation are not reproducible", "anchors": ["vl/gmm.c: _vl_gmm_maximization, _vl_gmm_apply_bounds"]}
{"id": "C136", "title": "GMM modes without data", "statement": "A mode to which no datum is assigned keeps its mean and covariance in the maximization.", "quantifier": "all data and posteriors", "why_tests_cant": "restarts usually hide the case", "anchors": ["vl/gmm.c: _vl_gmm_maximization"]}
{"id": "C137", "title": "GMM EM is consistent", "statement": "vl_gmm_em computes no undefined value; the likelihood and the posteriors it leaves are those of the parameters it leaves, the covariances are at least the bounds, some prior is at least 1e-6, and after at least one iteration the priors are nonnegative and sum to one. Without iterations the means and priors are unchanged.", "quantifier": "all data with at least one datum, 1 to 10^6 modes, positive bounds, numbers of iterations and schedules", "why_tests_cant": "all executions of an iterative algorithm", "anchors": ["vl/gmm.c: _vl_gmm_em, vl_gmm_em, _vl_gmm_restart_empty_modes"]}
{"id": "C138", "title": "GMM restarts", "statement": "Restarting empty modes keeps the posteriors distributions and the parameters valid; it changes nothing when all modes have enough mass, and one empty mode takes from the mode of largest entropy the data below its mean in the coordinate of its largest variance.", "quantifier": "all data, posteriors and parameters", "why_tests_cant": "needs nearly empty modes at the third iteration", "anchors": ["vl/gmm.c: _vl_gmm_restart_empty_modes"]}
{"id": "C139", "title": "GMM initializations", "statement": "The random initialization uses the selected data as means, equal priors and the variances of all data (zero for a single datum); the k-means initialization assigns every datum to its cluster and takes the means, variances (at least the bounds) and relative sizes of the clusters. Neither depends on the previous contents of the object.", "quantifier": "all data, centers and assignments", "why_tests_cant": "all states of the object", "anchors": ["vl/gmm.c: _vl_gmm_init_with_rand_data, _vl_gmm_init_with_kmeans, _vl_gmm_compute_init_sigma"]}
{"id": "C140", "title": "GMM repetitions", "statement": "vl_gmm_cluster with the random or the k-means initialization returns the likelihood and the mixture of the first best of its independent repetitions.", "quantifier": "all data, numbers of repetitions and schedules", "why_tests_cant": "arrays are swapped between repetitions", "anchors": ["vl/gmm.c: vl_gmm_cluster"]}
{"id": "C141", "title": "GMM copies", "statement": "EM from a copy made by vl_gmm_new_copy gives the same result as EM from the original.", "quantifier": "all objects", "why_tests_cant": "bounds other than the default are needed", "anchors": ["vl/gmm.c: vl_gmm_new_copy, vl_gmm_new"]}
{"id": "C142", "title": "GMM with negligible priors", "statement": "vl_gmm_em returns a number for all initial priors, such as those of the random initialization.", "quantifier": "all numbers of modes", "why_tests_cant": "needs more than a million modes or odd priors", "anchors": ["vl/gmm.c: vl_get_gmm_data_posteriors, _vl_gmm_init_with_rand_data"]}
{"id": "C143", "title": "GMM repetitions with custom initialization", "statement": "vl_gmm_cluster with the custom initialization starts each repetition from the parameters set by the user.", "quantifier": "all numbers of repetitions", "why_tests_cant": "reads memory whose contents vary", "anchors": ["vl/gmm.c: vl_gmm_cluster"]}
{"id": "C144", "title": "GMM iterations do not lower the likelihood", "statement": "An iteration of EM in which no prior is below 1e-6 and no posterior below 0.01 / K does not lower the log-likelihood, also when covariances are raised to their bounds.", "quantifier": "all data and parameters with at most 10000 modes", "why_tests_cant": "a statement about all real inputs", "anchors": ["vl/gmm.c: vl_get_gmm_data_posteriors, _vl_gmm_maximization"]}
{"id": "C145", "title": "Fisher vectors follow their formula", "statement": "vl_fisher_encode without options stores for each mode the average of the standardized data, and of their squares minus one, weighted by the posteriors (those below 1e-6 taken as zero), over the square root of the prior (of twice the prior); the blocks are first all first order ones, then all second order ones. Modes of prior below 1e-6 give zero blocks. With VL_FISHER_FLAG_FAST the posteriors are replaced by the indicator of the best mode. The result does not depend on the order of the parallel loops or on the initial contents of memory, and without data it is zero.", "quantifier": "all dimensions, numbers of modes and data, all mixtures with positive covariances and some prior of at least 1e-6, all loop orders", "why_tests_cant": "the formula mixes all data and modes; tests compare a few vectors", "anchors": ["vl/fisher.c:330-430"]}
{"id": "C146", "title": "Fisher vectors report their cost", "statement": "vl_fisher_encode returns the number of pairs of a non-negligible mode and a datum of non-negligible posterior in it, which is at most the number of data times that of modes, and exactly the number of data with VL_FISHER_FLAG_FAST.", "quantifier": "all inputs as in C145", "why_tests_cant": "the count depends on thresholded posteriors of all data", "anchors": ["vl/fisher.c:340-470"]}
{"id": "C147", "title": "Improved Fisher vectors", "statement": "VL_FISHER_FLAG_SQUARE_ROOT replaces each entry z of the plain encoding by the number y with y|y| = z, and VL_FISHER_FLAG_NORMALIZED then divides by the maximum of the Euclidean norm and 1e-12, so the result has norm one unless the norm is below 1e-12; the returned count does not change.", "quantifier": "all inputs as in C145, all combinations of flags", "why_tests_cant": "holds for all real encodings", "anchors": ["vl/fisher.c:430-470"]}
{"id": "C148", "title": "Fisher vectors are gradients", "statement": "If no posterior of a mode is below 1e-6, its first order block is the derivative of the average log-likelihood in the mean of the mode times the standard deviation over the square root of the prior, and its second order block is the derivative in the logarithm of the standard deviation over the square root of twice the prior.", "quantifier": "all data, mixtures with positive covariances, modes of prior at least 1e-6, coordinates", "why_tests_cant": "a statement about derivatives of the likelihood, not about finitely many values", "anchors": ["vl/fisher.c:20-180", "vl/fisher.c:330-430"]}
{"id": "C149", "title": "Detected features are stored completely and in order", "statement": "After vl_covdet_detect (before suppression) the features returned by vl_covdet_get_features are exactly those found, in the order found, whatever the object stored before; vl_covdet_append_feature adds a copy at the end.", "quantifier": "All objects in a valid state, all sequences of features, any contents of fresh memory.", "why_tests_cant": "The buffer grows by 1000 features at a time; a test with few features never reallocates.", "anchors": ["vl/covdet.c:955-977", "vl/covdet.c:1657-1677", "vl/covdet.c:1943-2089"]}
{"id": "C150", "title": "A reset detector can be used again", "statement": "vl_covdet_reset removes the buffered features: afterwards the number of features is zero and images can be put and features detected again.", "quantifier": "All objects that stored a feature.", "why_tests_cant": "Tests create one object per image and do not change the octaves after a detection.", "anchors": ["vl/covdet.c:1612-1634", "vl/covdet.c:1657-1677"]}
{"id": "C151", "title": "Suppression of non-extrema leaves no feature close to a stronger one", "statement": "Suppression keeps a sublist of the features, in order and unchanged; no kept feature is within the tolerance of a stronger kept one; a feature within the tolerance of no stronger one is kept; a removed feature is within the tolerance of a stronger feature that is kept or removed because of a later one; the reported number of suppressed features is the number removed. Tolerance zero changes nothing.", "quantifier": "All lists of features with nonzero scores, all tolerances.", "why_tests_cant": "The loop changes the scores it compares while it runs, so its result depends on chains of features.", "anchors": ["vl/covdet.c:2101-2139"]}
{"id": "C152", "title": "Suppression does not depend on the order of the features", "statement": "Which features survive suppression depends only on the set of features, and a feature is only removed for the sake of one that survives.", "quantifier": "All lists of features.", "why_tests_cant": "Needs chains of three overlapping features in different orders.", "anchors": ["vl/covdet.c:2107-2130"]}
{"id": "C153", "title": "Dropping features outside keeps exactly the contained ones", "statement": "vl_covdet_drop_features_outside keeps, in order, exactly the features whose frame maps every point of the square of half side margin into the image [0,width-1] x [0,height-1].", "quantifier": "All frames, image sizes and nonnegative margins.", "why_tests_cant": "Containment of the whole square is a statement about infinitely many points; the code looks at four.", "anchors": ["vl/covdet.c:3080-3143"]}
{"id": "C154", "title": "Orientations multiply features and rotate their frames", "statement": "After vl_covdet_extract_orientations each feature has its first orientation and copies with the other orientations follow after all features, in order; scores other than the orientation score, centres and ellipses A A' are unchanged, the frame becomes A R; features without orientation are unchanged.", "quantifier": "All stored features, all numbers of orientations, all angles.", "why_tests_cant": "The loop appends to the buffer it iterates over; reallocation moves the features.", "anchors": ["vl/covdet.c:2869-2907"]}
{"id": "C155", "title": "Laplacian scales multiply features, drop those without scale and are counted", "statement": "After vl_covdet_extract_laplacian_scales the features without a scale are gone, each other one has its first scale and copies with the other scales follow, in order; the statistics count the features by number of scales.", "quantifier": "All stored features with nonzero scores, up to four scales each.", "why_tests_cant": "Dropping uses the peak score as a mark and appended copies must survive it.", "anchors": ["vl/covdet.c:3028-3074"]}
{"id": "C156", "title": "The last octave is the largest with images of 16 pixels", "statement": "Without a limit on the number of octaves the last octave o is the largest one with 15 2^o <= min(width,height) - 1; a limit can only lower it.", "quantifier": "All images with sides of at least two pixels.", "why_tests_cant": "Floating-point logarithm and floor over all sizes, including negative octaves.", "anchors": ["vl/covdet.c:1707-1713"]}
{"id": "C157", "title": "The number of octaves set is the number of octaves computed", "statement": "After vl_covdet_set_num_octaves(n) with n positive, at most n octaves are computed, and n on large images.", "quantifier": "All first octaves, numbers of octaves and image sizes.", "why_tests_cant": "Tests use the automatic number of octaves.", "anchors": ["vl/covdet.c:1711-1713"]}
{"id": "C158", "title": "Small images can be put", "statement": "vl_covdet_put_image accepts all images of at least one pixel with the default first octave -1: there is at least one octave.", "quantifier": "All image sizes.", "why_tests_cant": "Degenerate sizes; the failure is an assertion, or a read of the logarithm of zero, inside the scale space.", "anchors": ["vl/covdet.c:1683-1713", "vl/scalespace.c:580-600"]}
{"id": "C159", "title": "Every subdivision of an octave is searched for extrema by DoG and Hessian", "statement": "The difference-of-Gaussian and Hessian detectors look for extrema at each of the octaveResolution subdivisions of each octave and at no other.", "quantifier": "All octave resolutions.", "why_tests_cant": "Missing one subdivision only loses some features.", "anchors": ["vl/covdet.c:1715-1718", "vl/covdet.c:1951-1954", "vl/covdet.c:2012-2018"]}
{"id": "C160", "title": "Every subdivision of an octave is searched for extrema by the multiscale and Laplace detectors", "statement": "The Hessian-Laplace, Harris-Laplace, multiscale Hessian and multiscale Harris detectors look for extrema at each of the octaveResolution subdivisions of each octave.", "quantifier": "All octave resolutions.", "why_tests_cant": "Missing one subdivision only loses some features.", "anchors": ["vl/covdet.c:1721-1724", "vl/covdet.c:2052"]}
{"id": "C161", "title": "Orientations of a frame are the peaks of its direction histogram", "statement": "vl_covdet_extract_orientations_for_frame returns the directions at the tops of the parabolas through the peaks above 80% of the maximum of the histogram of 36 directions of the weighted gradients of the patch, each gradient shared between the two closest bins, smoothed six times circularly: the first maxNumOrientations (at most 4) in the order of the bins, sorted by descending score. Each is less than half a bin from the centre of its bin.", "quantifier": "All patches, masks, rotations and limits from 1 to 4.", "why_tests_cant": "Wrap-around of directions, the smoothing in place and the interpolation depend on all values.", "anchors": ["vl/covdet.c:2786-2862"]}
{"id": "C162", "title": "The strongest orientation of a frame is returned", "statement": "If a frame has orientations, the first one returned is the highest peak of its histogram.", "quantifier": "All patches and limits.", "why_tests_cant": "Needs more peaks of similar height than the limit.", "anchors": ["vl/covdet.c:2826-2858"]}
{"id": "C163", "title": "The number of orientations is limited as requested", "statement": "After vl_covdet_set_max_num_orientations(m), at most m orientations per frame are returned and nothing outside the array of orientations is written, for any m.", "quantifier": "All limits.", "why_tests_cant": "Tests use limits from 1 to 4.", "anchors": ["vl/covdet.c:1481", "vl/covdet.c:2843-2848", "vl/covdet.c:3316-3327"]}
{"id": "C164", "title": "Laplacian scales of a frame are extrema of the scale-normalised Laplacian", "statement": "vl_covdet_extract_laplacian_scales_for_frame computes the scale-normalised responses to the bank of 10 filters and returns the scales at the tops of the parabolas through the first four strict extrema whose absolute value reaches the threshold, in increasing order of the levels; each is less than half a level from its extremum.", "quantifier": "All patches, filters and thresholds.", "why_tests_cant": "Interpolation and the limit of four matter only for particular responses.", "anchors": ["vl/covdet.c:2972-3018"]}
{"id": "C165", "title": "The score of a Laplacian scale is the interpolated response", "statement": "The score returned with a Laplacian scale is the value at the top of the parabola through the extremum and its neighbours.", "quantifier": "All responses.", "why_tests_cant": "The error is small and scores are rarely compared with reference values.", "anchors": ["vl/covdet.c:3013"]}
{"id": "C166", "title": "All local extrema are found once", "statement": "vl_find_local_extrema_3 and _2 list exactly the points off the border that are at least (at most) the positive (negative) threshold and strictly above (below) all 26 or 8 neighbours, once, in raster order; the buffer is grown as needed and its earlier content does not matter.", "quantifier": "All maps, sizes, thresholds and buffers.", "why_tests_cant": "Missing or doubled extrema and an overflow of the buffer need particular maps or thousands of extrema.", "anchors": ["vl/covdet.c:1057-1136", "vl/covdet.c:1147-1193"]}
{"id": "C167", "title": "Extrema are refined by Newton steps inside the map", "statement": "vl_refine_local_extreum_3 and _2 move at most four times by one pixel towards the stationary point of the second order expansion, never to the border, and return the last pixel, the stationary point, the value of the expansion there, and whether it is less than 1.5 pixels away and inside the map; a singular system gives the pixel itself and failure.", "quantifier": "All maps and interior points.", "why_tests_cant": "The moves and failures depend on rare maps.", "anchors": ["vl/covdet.c:1206-1330", "vl/covdet.c:1332-1430"]}
{"id": "C168", "title": "The edge score is the ratio of the principal curvatures", "statement": "The edge score of a refined extremum is the ratio of the eigenvalues of the Hessian, the larger first; an extremum with a zero eigenvalue, or with eigenvalues of opposite sign and sum not zero, is below no edge threshold.", "quantifier": "All Hessians.", "why_tests_cant": "An identity over all numbers.", "anchors": ["vl/covdet.c:1286-1297", "vl/covdet.c:1398-1409"]}
{"id": "C169", "title": "Features are not at saddle points", "statement": "An extremum refined to a pixel where the eigenvalues of the Hessian have opposite signs is rejected by the edge threshold.", "quantifier": "All maps.", "why_tests_cant": "Needs eigenvalues that are exactly opposite.", "anchors": ["vl/covdet.c:1286-1297", "vl/covdet.c:1398-1409"]}
{"id": "C170", "title": "Features are the stable strong extrema", "statement": "The features found in an octave or a level are, in order, those of the local extrema above 0.8 times the peak threshold whose refinement succeeded, whose refined value exceeds the peak threshold and whose edge score is below the edge threshold, placed at the refined position and scale; they lie inside the image.", "quantifier": "All maps, thresholds and scales.", "why_tests_cant": "A statement about every extremum of every map.", "anchors": ["vl/covdet.c:2006-2096"]}
{"id": "C171", "title": "No feature is found twice", "statement": "The features found at one level are distinct.", "quantifier": "All maps.", "why_tests_cant": "Needs two extrema whose refinements meet.", "anchors": ["vl/covdet.c:2058-2094", "vl/covdet.c:1332-1430"]}
{"id": "C172", "title": "Patches are taken from a level of suitable scale", "statement": "vl_covdet_extract_patch_helper reads a level of the scale space whose smoothing, mapped to the patch, is at most the smoothing requested if there is such a level; no level of a later octave qualifies.", "quantifier": "All geometries, frames and requested smoothings.", "why_tests_cant": "The result is only a difference in blur.", "anchors": ["vl/covdet.c:2222-2244"]}
{"id": "C173", "title": "Patches are taken from the best level", "statement": "The level used for a patch is the one of largest smoothing that does not exceed the smoothing requested.", "quantifier": "All geometries with several subdivisions.", "why_tests_cant": "The result is only a difference in blur.", "anchors": ["vl/covdet.c:2225-2238"]}
{"id": "C174", "title": "Patches are bilinear interpolations of the image", "statement": "A patch is the bilinear interpolation of the image of the level at the grid mapped by the frame; if it crosses the left, upper or lower border the image is extended by continuity; if it reaches the last column the column before is extended instead; a patch above or below the image is zero; without padding a patch not contained in the image is an error. No memory outside the image and the buffer is accessed.", "quantifier": "All frames at most two pixels left of the image, images, resolutions and buffers.", "why_tests_cant": "Tests look at few frames well inside.", "anchors": ["vl/covdet.c:2253-2424"]}
{"id": "C175", "title": "Patches contained in the image show the image", "statement": "A patch contained in the image is the bilinear interpolation of the image.", "quantifier": "All frames contained in the image.", "why_tests_cant": "Needs frames that touch the last column.", "anchors": ["vl/covdet.c:2344"]}
{"id": "C176", "title": "Patches left of the image can be extracted", "statement": "With padding, a patch left of the image is extracted without access outside the buffers.", "quantifier": "All frames.", "why_tests_cant": "Features are rarely so far outside; the overflow is of the heap.", "anchors": ["vl/covdet.c:2340-2345"]}
{"id": "C177", "title": "Patches above and below the image extend it by continuity", "statement": "With padding, a patch above or below the image is the interpolation of the image extended by continuity.", "quantifier": "All frames.", "why_tests_cant": "Features are rarely so far outside.", "anchors": ["vl/covdet.c:2337-2362"]}
{"id": "C178", "title": "vl_svd2 decomposes a 2 by 2 matrix", "statement": "vl_svd2 writes M as U S V' with U and V rotations and |S[3]| <= |S[0]|; for a positive determinant S[0] and S[3] are the largest and the smallest stretch of a unit vector.", "quantifier": "all real 2 by 2 matrices whose first column is not zero and that are not singular to double precision", "why_tests_cant": "The formulas of dlasv2 divide, swap and correct signs in several cases; each must compose to the same product.", "anchors": ["vl/mathop.c vl_svd2", "vl/mathop.c vl_lapack_dlasv2"]}
{"id": "C179", "title": "vl_svd2 returns singular values, which are not negative", "statement": "The diagonal of S holds the singular values of M.", "quantifier": "all matrices", "why_tests_cant": "A test on matrices of positive determinant never sees a negative entry.", "anchors": ["vl/mathop.c vl_svd2", "vl/mathop.c vl_lapack_dlasv2", "vl/covdet.c vl_covdet_extract_patch_for_frame"]}
{"id": "C180", "title": "vl_svd2 decomposes every matrix", "statement": "Each 2 by 2 matrix has a decomposition and vl_svd2 finds one.", "quantifier": "all matrices", "why_tests_cant": "The failing set has measure zero.", "anchors": ["vl/mathop.c vl_svd2"]}
{"id": "C181", "title": "vl_svd2 is accurate for nearly singular matrices", "statement": "The case of a very large off-diagonal entry gives U S V' close to M.", "quantifier": "all matrices", "why_tests_cant": "The case is taken only when one entry exceeds the others 2^52 times.", "anchors": ["vl/mathop.c vl_lapack_dlasv2"]}
{"id": "C182", "title": "Affine adaptation ends with a bounded, upright frame of unchanged smallest scale", "statement": "vl_covdet_extract_affine_shape_for_frame ends after at most 15 iterations; the frame it returns maps the upright direction to itself and either has the shape of the input frame or its smallest singular value and an anisotropy of at most 5. When second moments transform as M = A' N A it finds a frame seeing isotropic moments, or gives up because of the anisotropy.", "quantifier": "all frames of positive determinant, all measured second moments that are not nearly singular", "why_tests_cant": "The loop has five exits and the invariant spans iterations; images that exercise each exit cannot be enumerated.", "anchors": ["vl/covdet.c vl_covdet_extract_affine_shape_for_frame"]}
{"id": "C183", "title": "The anisotropy of adapted frames is bounded for mirrored frames too", "statement": "A frame returned by the adaptation has an anisotropy of at most 5 unless it has the shape of the input frame.", "quantifier": "all frames, including those of negative determinant", "why_tests_cant": "Detectors produce frames of positive determinant; only frames given by the user are mirrored.", "anchors": ["vl/covdet.c vl_covdet_extract_affine_shape_for_frame", "vl/mathop.c vl_svd2"]}
{"id": "C184", "title": "Image gradients are the documented differences", "statement": "vl_imgradient stores at each pixel half the difference of the two neighbours, and the difference to the one neighbour on the borders, at the places given by the strides, and writes nothing else; vl_imgradient_polar stores modulus and angle of the same derivatives.", "quantifier": "all images of at least 2 by 2 pixels, all strides of image and planes with distinct places", "why_tests_cant": "The nine cases of the traversal must meet at every width and height, and padding must stay untouched.", "anchors": ["vl/imopv.c vl_imgradient_", "vl/imopv.c vl_imgradient_polar_"]}
{"id": "C185", "title": "Image gradients are defined for every image", "statement": "vl_imgradient reads and writes only inside of its arrays.", "quantifier": "all image sizes", "why_tests_cant": "Tests use images larger than one pixel in each direction.", "anchors": ["vl/imopv.c vl_imgradient_"]}
{"id": "C186", "title": "The Hessian response is the determinant of finite differences, extended to the border", "statement": "_vl_det_hessian_response sets each pixel to (sigma/step)^4 times the determinant of the Hessian at the nearest pixel not on the border, whatever the buffer held before.", "quantifier": "all images of at least 3 by 3 pixels, all buffers", "why_tests_cant": "The borders are filled by copies of copies whose order matters.", "anchors": ["vl/covdet.c _vl_det_hessian_response"]}
{"id": "C187", "title": "The Hessian response does not depend on the contents of the buffer", "statement": "The output of the Hessian detector depends only on the image.", "quantifier": "all image sizes", "why_tests_cant": "Memory from malloc is often zero in tests.", "anchors": ["vl/covdet.c _vl_det_hessian_response"]}
{"id": "C188", "title": "Difference of Gaussians and Harris responses follow their formulas", "statement": "The DoG response is the next level minus the level; the Harris response is (sigma/step)^4 (det M - alpha trace(M)^2) of the smoothed second moment matrix M of the gradients, at every pixel.", "quantifier": "all images of at least 2 by 2 pixels, all smoothing operators that keep the size", "why_tests_cant": "In-place squares and products must be taken in the right order for every pixel.", "anchors": ["vl/covdet.c _vl_dog_response", "vl/covdet.c _vl_harris_response"]}
{"id": "C189", "title": "The fast arc tangent is close to the angle", "statement": "For every (x, y) other than (0, 0), vl_fast_atan2 returns a number within 0.0062 radians of the angle of (x, y) in (-pi, pi], plus VL_EPSILON divided by the length of (x, y); its absolute value is at most pi + 0.00001, and mirroring the point in the x axis changes the sign", "quantifier": "all real x, y and epsilon", "why_tests_cant": "the largest error is at two isolated directions; tests sample directions and cannot bound the error between samples", "anchors": ["vl/mathop.h:370-447"]}
{"id": "C190", "title": "The error of the fast arc tangent is at most 0.0061", "statement": "As documented, the error of vl_fast_atan2 is at most 0.0061 radians", "quantifier": "all vectors", "why_tests_cant": "a test must hit the direction of the largest error and use more digits than the claim", "anchors": ["vl/mathop.h:390-402"]}
{"id": "C191", "title": "The fast arc tangent is precise for short vectors", "statement": "vl_fast_atan2 approximates the angle of short vectors as well as that of long ones", "quantifier": "all vectors", "why_tests_cant": "images used in tests have gradients that are exactly zero or far larger than the epsilon", "anchors": ["vl/mathop.h:407-424"]}
{"id": "C192", "title": "Angles are reduced to one turn", "statement": "In exact arithmetic vl_mod_2pi returns a number in [0, 2 pi] that differs from the argument by a multiple of 2 pi, leaves numbers in that range alone, takes at most |x| / 2 pi steps in each loop, and returns 2 pi itself only for positive multiples of 2 pi", "quantifier": "all real x", "why_tests_cant": "tests use a few angles near the range; the claim holds for all numbers of turns", "anchors": ["vl/mathop.h:95-126"]}
{"id": "C193", "title": "The reduction of angles returns", "statement": "With the rounding of floating point numbers, vl_mod_2pi_f and vl_mod_2pi_d return for every finite argument", "quantifier": "all finite numbers", "why_tests_cant": "a test would not come back; large arguments do not occur in the tests", "anchors": ["vl/mathop.h:108-126"]}
{"id": "C194", "title": "Rounding down", "statement": "vl_floor_f and vl_floor_d return n exactly when n is the largest integer not above x and fits a long int", "quantifier": "all x", "why_tests_cant": "negative integers, negative fractions and the limits of the type are separate cases for all magnitudes", "anchors": ["vl/mathop.h:128-153"]}
{"id": "C195", "title": "The fast square roots have a relative error of 5 parts in a million", "statement": "For every positive normal number, of either precision, vl_fast_resqrt returns at most 1/sqrt(x) and at least (1 - 0.000005)/sqrt(x), not counting rounding in the steps of Newton; vl_fast_sqrt has the same relative error from 10^-8 up, and is 0 below, where the root is at most 10^-4", "quantifier": "all positive normal numbers of both formats", "why_tests_cant": "there are 2^31 and 2^63 arguments, and the error depends on the fraction and on the parity of the exponent", "anchors": ["vl/mathop.h:449-560"]}
{"id": "C196", "title": "The fast square root of a positive number is positive", "statement": "vl_fast_sqrt_f approximates the root of every positive normal number up to a relative error", "quantifier": "all positive normal numbers", "why_tests_cant": "tests do not use tiny numbers", "anchors": ["vl/mathop.h:547-551"]}
{"id": "C197", "title": "The label hash table counts every label exactly", "statement": "After any number of calls of vl_ihashsum on an initially zero table, vl_ihashfind maps every label given so far to the slot that holds it, whose count is the number of times it was given modulo 2^32, and maps every other label to 0; every slot in use holds a given label, and each label has one slot; a label of zeros is an error in vl_ihashsum", "quantifier": "For all label lengths, all numbers of buckets from 1 and all sequences of batches of labels", "why_tests_cant": "Collision chains, the overflow area and its growth depend on the hash values of all labels given; tests try a few label sets", "anchors": ["toolbox/misc/vl_ihashsum.c:163-226", "toolbox/misc/vl_ihashfind.c:144-182"]}
{"id": "C198", "title": "Any K up to the number of buckets is accepted by the label hash table", "statement": "vl_ihashsum and vl_ihashfind are defined for every K that passes their check K <= NBUCKETS", "quantifier": "For all K", "why_tests_cant": "No test passes K = 0", "anchors": ["toolbox/misc/vl_ihashsum.c:159-161"]}
{"id": "C199", "title": "The overflow area of the label hash table is used only when the table is full", "statement": "A new label gets a slot of the overflow area only if all K buckets are in use, as documented", "quantifier": "For all K and sequences of labels", "why_tests_cant": "Depends on the common divisors of K and the second hash, which tests with few labels do not meet", "anchors": ["toolbox/misc/vl_ihashsum.m:26-29", "toolbox/misc/vl_ihashsum.c:174-184"]}
{"id": "C200", "title": "Descriptor matching returns exactly the pairs that pass the ratio test", "statement": "vl_ubcmatch returns a pair k1, k2 with score d exactly if descriptor k2 is the first of those nearest to k1, d is their squared distance, and d times the threshold is less than the squared distance of k1 to every other descriptor of the second set; pairs come in the order of k1", "quantifier": "For all sets of descriptors of equal length and all thresholds", "why_tests_cant": "The early exit from the distance loop and the update of the two best values depend on the order of all descriptors; tests try a few images", "anchors": ["toolbox/sift/vl_ubcmatch.c:50-101"]}
{"id": "C201", "title": "The matching threshold applies to distances", "statement": "A descriptor D1 is matched to D2 only if the distance d(D1,D2) multiplied by THRESH is not greater than the distance of D1 to all other descriptors, as documented", "quantifier": "For all descriptors and thresholds", "why_tests_cant": "Tests compare with a reference that squares in the same way", "anchors": ["toolbox/sift/vl_ubcmatch.m:11-15", "toolbox/sift/vl_ubcmatch.c:90"]}
{"id": "C202", "title": "A lone descriptor always matches", "statement": "If the second set has one descriptor, every descriptor of the first set is matched to it, for any threshold and every storage class", "quantifier": "For all descriptors, thresholds and classes", "why_tests_cant": "Needs a large threshold or large distances with integer classes", "anchors": ["toolbox/sift/vl_ubcmatch.c:34-37", "toolbox/sift/vl_ubcmatch.c:90"]}
{"id": "C203", "title": "Bin search returns the bin of each value", "statement": "For a non-decreasing B, vl_binsearch maps x to the number k with B(1..k) <= x < B(k+1..M), and to 0 if B is empty", "quantifier": "For all non-decreasing B and all x", "why_tests_cant": "Repeated bounds and values on bounds exercise different paths of the bisection", "anchors": ["toolbox/misc/vl_binsearch.c:50-80"]}
{"id": "C204", "title": "Binned summation adds each value to its bin", "statement": "vl_binsum without DIM returns the accumulator with each element increased by the sum of the values whose index selects it, skips null indexes, accepts one value for all indexes, and raises an error exactly if an index is out of bounds or the numbers of elements differ", "quantifier": "For all accumulators, values and indexes", "why_tests_cant": "Tests fix a few arrays", "anchors": ["toolbox/misc/vl_binsum.def:100-131"]}
{"id": "C205", "title": "Binned summation along a dimension keeps slices apart", "statement": "vl_binsum with DIM adds a value at position u before, v along and z after the dimension to the element of the accumulator at u, the index, z, for values of the size of the indexes, and for one value if DIM is at most 3; it never touches an element outside the accumulator", "quantifier": "For all numbers of dimensions, sizes, values and indexes", "why_tests_cant": "The pointer moves by strides that depend on all dimensions; tests use two or three dimensions", "anchors": ["toolbox/misc/vl_binsum.def:134-268"]}
{"id": "C206", "title": "A single value works along every dimension", "statement": "vl_binsum with a scalar VALUES and DIM gives the same result as with an array of that value, and checks the dimensions", "quantifier": "For all dimensions", "why_tests_cant": "Tests do not use four dimensions with a scalar", "anchors": ["toolbox/misc/vl_binsum.def:183-195"]}
{"id": "C207", "title": "Indexes may lack the last dimension when DIM is the last", "statement": "vl_binsum accepts INDEXES with one dimension less than the accumulator if DIM is the last, as the comment in the code says", "quantifier": "For all arrays", "why_tests_cant": "The code reads beyond an array of dimensions, which usually goes unnoticed", "anchors": ["toolbox/misc/vl_binsum.def:154-168", "toolbox/misc/vl_binsum.def:235"]}
{"id": "C208", "title": "The running maximum along a dimension is the maximum so far", "statement": "vl_cummax returns at each position the greatest of the elements up to it along DIM, and without DIM works along the first dimension that is not one", "quantifier": "For all arrays and dimensions", "why_tests_cant": "Strides depend on all dimensions", "anchors": ["toolbox/misc/vl_cummax.c:85-132", "toolbox/misc/vl_cummax.def:66-91"]}
{"id": "C209", "title": "vl_erfill lists the extremal region of a pixel", "statement": "For an image and the index of one of its pixels, vl_erfill lists the indices of exactly the pixels that are reached from it by steps between neighbours of value at most that of the pixel (at least, for a negative index), whenever that region is not the whole image. The index given comes first and the rest of the list has no repetition. An index of no pixel is an error.", "quantifier": "all images of any number of dimensions, all indices", "why_tests_cant": "the region depends on paths of any length in images of any shape", "anchors": ["toolbox/mser/vl_erfill.c:109-208"]}
{"id": "C210", "title": "vl_erfill lists no pixel twice", "statement": "The list of pixels returned by vl_erfill has no repetition.", "quantifier": "all images and indices", "why_tests_cant": "tests compare the list with the region as sets, or use regions of one pixel", "anchors": ["toolbox/mser/vl_erfill.c:118-126", "toolbox/mser/vl_erfill.c:165-176"]}
{"id": "C211", "title": "vl_erfill works on any region", "statement": "vl_erfill stays within its arrays for every image and every index of a pixel.", "quantifier": "all images and indices", "why_tests_cant": "the write beyond the end is silent in most allocators", "anchors": ["toolbox/mser/vl_erfill.c:96-101", "toolbox/mser/vl_erfill.c:170-176"]}
{"id": "C212", "title": "An integral histogram holds the mass of each label above and left of each pixel", "statement": "For label maps whose labels are at most the number of bins, the entry of vl_inthist at a pixel and a label is the total mass of that label, over all maps, in the pixels of no greater row and column, modulo 2^32. With NUMLABELS given, a greater label in the first map is an error.", "quantifier": "all sizes, maps, labels and masses", "why_tests_cant": "the sums involve all pixels before each one and any number of maps", "anchors": ["toolbox/misc/vl_inthist.c:148-207", "toolbox/misc/inthist.tc:25-55"]}
{"id": "C213", "title": "A sample of an integral histogram is the histogram of the box", "statement": "For every box within the image, vl_sampleinthist applied to the result of vl_inthist gives the mass of each label in the box modulo 2^32; for an empty box it gives zeros; for another box it is an error.", "quantifier": "all label maps and lists of boxes", "why_tests_cant": "the differences at the borders of the image and the order of the corners matter for any size", "anchors": ["toolbox/misc/samplinthist.tc:8-78", "toolbox/misc/vl_sampleinthist.c:50-130"]}
{"id": "C214", "title": "vl_inthist counts the labels of all maps", "statement": "For any number of maps and any labels, vl_inthist has one bin for each label, or raises an error if NUMLABELS is too small.", "quantifier": "all label maps", "why_tests_cant": "tests give NUMLABELS, or have the greatest label in the first map", "anchors": ["toolbox/misc/vl_inthist.c:148-159"]}
{"id": "C215", "title": "The mass of each entry of the label maps is that of the same entry of MASS", "statement": "With several maps, vl_inthist adds for each entry of LABELS the entry of MASS at the same row, column and layer.", "quantifier": "all label maps and masses", "why_tests_cant": "tests give no mass or one layer", "anchors": ["toolbox/misc/vl_inthist.c:187-195"]}
{"id": "C216", "title": "An empty label map gives an empty integral histogram", "statement": "For label maps without pixels, vl_inthist returns an array without entries.", "quantifier": "all empty label maps", "why_tests_cant": "an access to an empty array may go unnoticed", "anchors": ["toolbox/misc/inthist.tc:31-33", "toolbox/misc/vl_inthist.c:196-199"]}
{"id": "C217", "title": "vl_localmax lists the local maxima", "statement": "For an array with elements and P from one to the number of dimensions, vl_localmax lists, in increasing order, the indices of exactly the elements that are not on the boundary along the first P dimensions, reach the threshold and are greater than all elements whose subscripts differ from theirs by one at most along these dimensions and not at all along the others. Without P all dimensions count, and matrices of one row or one column are vectors. A greater P is an error.", "quantifier": "all arrays of any number of dimensions, thresholds and P", "why_tests_cant": "the carry between subscripts and the set of neighbours depend on all sizes", "anchors": ["toolbox/misc/vl_localmax.c:64-254"]}
{"id": "C218", "title": "vl_localmax without neighbours selects by threshold", "statement": "With P = 0, which is accepted, no element has neighbours, and all elements that reach the threshold are listed.", "quantifier": "all arrays", "why_tests_cant": "P = 0 is not tested", "anchors": ["toolbox/misc/vl_localmax.c:64-70", "toolbox/misc/vl_localmax.c:156-189"]}
{"id": "C219", "title": "vl_localmax of an array without elements is empty", "statement": "An array with a dimension of size zero has no local maxima, and vl_localmax returns an empty list.", "quantifier": "all empty arrays", "why_tests_cant": "a read beyond an empty array may go unnoticed", "anchors": ["toolbox/misc/vl_localmax.c:169-200"]}
{"id": "C220", "title": "vl_imwbackward interpolates the image bilinearly", "statement": "For increasing grids XR and YR with at least one point and an image of their size, every output pixel whose point lies within the grid is the only bilinear interpolation of the samples there, including on the last column and row and on grids of one column or row, and every other pixel is NaN; the code reads only its arrays.", "quantifier": "all images, increasing grids and points", "why_tests_cant": "the search, the weights and the missing neighbours on the borders matter for any size", "anchors": ["toolbox/imop/vl_imwbackwardmx.c:33-53", "toolbox/imop/vl_imwbackwardmx.c:133-195"]}
{"id": "C221", "title": "vl_imwbackward with derivatives gives the interpolation and its differences", "statement": "At points within the grid and before its last column and row, the mode with derivatives returns the bilinear interpolation and, along each axis, the change of the interpolation over the width of the cell; outside of the grid it returns NaN.", "quantifier": "all images, increasing grids and points before the last column and row", "why_tests_cant": "depends on all weights and samples of the cell", "anchors": ["toolbox/imop/vl_imwbackwardmx.c:197-263"]}
{"id": "C222", "title": "vl_imwbackward with derivatives handles the last column and row", "statement": "With derivatives, a point on the last column or row of the grid, as of the identity warp, is interpolated like without derivatives.", "quantifier": "all images, increasing grids and points", "why_tests_cant": "the value read beyond the grid is multiplied by zero most of the time", "anchors": ["toolbox/imop/vl_imwbackwardmx.c:217-222"]}
{"id": "C223", "title": "The derivatives of vl_imwbackward are those of the interpolation", "statement": "For any grids XR and YR the outputs JX and JY are the partial derivatives of the interpolated image.", "quantifier": "all images and increasing grids", "why_tests_cant": "tests use the standard grid, of step one", "anchors": ["toolbox/imop/vl_imwbackwardmx.c:251-257"]}
{"id": "C224", "title": "vl_aibhist counts the data below each node", "statement": "For a tree whose links go to later nodes (or are 0, 1 or the node itself for roots) and data that are nodes, the entry of each node is the number of data that are the node or one of its descendants, modulo 2^32. A datum 0 or a link beyond the last node is an error.", "quantifier": "all trees and data", "why_tests_cant": "every path of the tree matters", "anchors": ["toolbox/aib/vl_aibhist.c:88-166"]}
{"id": "C225", "title": "vl_aibhist accepts histograms", "statement": "With the option 'hist', vl_aibhist counts each leaf as many times as the component of DATA says.", "quantifier": "all trees and histograms", "why_tests_cant": "the mode is not tested", "anchors": ["toolbox/aib/vl_aibhist.c:138-146"]}
{"id": "C226", "title": "vl_aibhist refuses data that are not leaves", "statement": "A datum that is an inner node of the tree raises the error 'is not a leaf'.", "quantifier": "all trees and data", "why_tests_cant": "tests give leaves only", "anchors": ["toolbox/aib/vl_aibhist.c:98-108", "toolbox/aib/vl_aibhist.c:134-156"]}
{"id": "C227", "title": "vl_aibhist refuses data beyond the tree", "statement": "A datum greater than the number of nodes raises an error, and the code reads only its arrays.", "quantifier": "all trees and data", "why_tests_cant": "reading beyond an array may go unnoticed", "anchors": ["toolbox/aib/vl_aibhist.c:134-160"]}
{"id": "C228", "title": "vl_aibhist terminates", "statement": "Links to earlier nodes are refused, so that the walks to the root end for any array of parents.", "quantifier": "all arrays of parents", "why_tests_cant": "tests give trees", "anchors": ["toolbox/aib/vl_aibhist.c:118-123", "toolbox/aib/vl_aibhist.c:158-164"]}
{"id": "C229", "title": "vl_alldist2 computes the documented distances and kernels of full matrices", "statement": "For full matrices of class double with the same number of rows, and each of the eleven metrics and kernels, the entry (i, j) of D is the documented distance or kernel of the column i of X and the column j of Y (of X if Y is not given, where half of the entries are copied from the other half); different numbers of rows are an error, and the code reads and writes only its arrays.", "quantifier": "all matrices of class double and all metrics", "why_tests_cant": "the indices of the copied entries and the divisions by zero depend on all sizes and values", "anchors": ["toolbox/misc/vl_alldist2.c:91-117", "toolbox/misc/vl_alldist2.c:213-270"]}
{"id": "C230", "title": "vl_alldist2 computes the same for sparse matrices", "statement": "For sparse matrices, where rows that are not written are zeros, the entries of D are the documented distances or kernels of the columns.", "quantifier": "all sparse matrices and all metrics", "why_tests_cant": "the merge of two lists of rows has many cases", "anchors": ["toolbox/misc/vl_alldist2.c:119-200"]}
{"id": "C231", "title": "The metrics of vl_alldist2 are those of its kernels", "statement": "On data that are not negative, D(i,j) = K(i,i) + K(j,j) - 2 K(i,j) for the pairs L2 and KL2, L1 and KL1, CHI2 and KCHI2, HELL and KHELL.", "quantifier": "all full matrices of nonnegative numbers", "why_tests_cant": "an identity between two functions for all data", "anchors": ["toolbox/misc/vl_alldist2.c:213-254", "toolbox/misc/vl_alldist2.m:26-41"]}
{"id": "C232", "title": "vl_alldist2 refuses a full and a sparse matrix", "statement": "If one of X and Y is full and the other sparse, vl_alldist2 raises the error 'X and Y must be either both full or sparse'.", "quantifier": "all pairs of a full and a sparse matrix", "why_tests_cant": "reading beyond an array may go unnoticed", "anchors": ["toolbox/misc/vl_alldist2.c:315-322"]}
{"id": "C233", "title": "The LIOP descriptor is the documented weighted histogram of order patterns", "statement": "For a patch of side at least three and a radius of at most half of the side, vl_liopdesc_process reads only the patch and its buffers, and the entry of a permutation in a block is the number of pairs of neighbours that differ by more than the threshold, summed over the pixels of the share of the circular region that belongs to the block, ordered by intensity, whose bilinearly interpolated neighbours are ordered as that permutation, divided by the norm of all entries or by 1e-12 if that is larger; a negative threshold is relative to the range of intensities of the region.", "quantifier": "all patches, sides, radii, numbers of neighbours and bins, and directions in the unit square", "why_tests_cant": "sampling near the border depends on all sizes and radii", "anchors": ["vl/liop.c:344-396", "vl/liop.c:441-557"]}
{"id": "C234", "title": "LIOP descriptors have norm one", "statement": "The squared norm of the descriptor is one, up to the error of the square root, unless no pair of neighbours differs by more than the threshold, when the descriptor is zero.", "quantifier": "all patches and parameters", "why_tests_cant": "a statement about all patches", "anchors": ["vl/liop.c:546-556"]}
{"id": "C235", "title": "LIOP descriptors do not change with affine changes of the intensities", "statement": "Scaling all intensities by a positive factor does not change the descriptor if the threshold is relative, or is scaled as well; adding an offset does not either if all neighbours of the region are inside of the patch.", "quantifier": "all patches, factors and offsets", "why_tests_cant": "a relation between two runs, including the order in which quicksort leaves ties", "anchors": ["vl/liop.c:441-557"]}
{"id": "C236", "title": "LIOP descriptors are invariant to monotonic intensity changes", "statement": "If the intensities of two patches are ordered in the same way, with threshold zero the descriptors are the same.", "quantifier": "all patches", "why_tests_cant": "a relation between two runs", "anchors": ["vl/liop.c:67-73", "vl/liop.c:500-524"]}
{"id": "C237", "title": "LIOP descriptors are invariant to rotations", "statement": "Turning the patch by a quarter does not change the descriptor if the intensities are distinct.", "quantifier": "all patches of distinct intensities", "why_tests_cant": "a relation between two runs", "anchors": ["vl/liop.c:67-79", "vl/liop.c:384-392"]}
{"id": "C238", "title": "LIOP neighbourhoods are inside of the patch", "statement": "A margin is kept such that all neighbours of the pixels of the region are inside of the patch; in particular a constant patch has the zero descriptor.", "quantifier": "all sides and radii", "why_tests_cant": "the margin depends on side and radius", "anchors": ["vl/liop.c:105-108", "vl/liop.c:347-360"]}
{"id": "C239", "title": "LIOP gives remaining pixels to the last partition", "statement": "If the number of bins does not divide the number of pixels, the shares are equal and the remaining pixels are in the last one.", "quantifier": "all numbers of pixels and bins", "why_tests_cant": "few combinations are tested", "anchors": ["vl/liop.c:128-133", "vl/liop.c:481-492"]}
{"id": "C240", "title": "LIOP descriptors of patches of any odd side", "statement": "For each odd side and radius of at most half of the side the descriptor is computed.", "quantifier": "all odd sides", "why_tests_cant": "tests use the default parameters", "anchors": ["vl/liop.c:58-60", "vl/liop.c:347-360"]}
{"id": "C241", "title": "Levels of a scale space have the documented scale and step", "statement": "After vl_scalespace_put_image of an image of the nominal scale, level s of octave o is sampled with step 2^o and has scale base 2^(o + s/resolution), if the first level is not finer than the image; otherwise the squared scales of all levels exceed it by the same amount.", "quantifier": "all geometries with a nonnegative last octave and all images", "why_tests_cant": "the chain of copies, resamplings and smoothings depends on the geometry; tests use the default one", "anchors": ["vl/scalespace.c:654-811", "vl/scalespace.c:424-428"]}
{"id": "C242", "title": "vl_scalespace_put_image works for any valid geometry", "statement": "For each geometry accepted by the constructor an image can be put in the scale space.", "quantifier": "all geometries", "why_tests_cant": "geometries with only negative octaves are not tested", "anchors": ["vl/scalespace.c:700-701"]}
{"id": "C243", "title": "Logistic loss and its derivative", "statement": "vl_svm_logistic_loss is log(1 + exp(-y z)), for scores of both signs, and vl_svm_logistic_loss_derivative is its derivative.", "quantifier": "all scores and labels", "why_tests_cant": "a derivative is a limit; tests compare a few values", "anchors": ["vl/svm.c:1758-1778"]}
{"id": "C244", "title": "Conjugate of the logistic loss", "statement": "vl_svm_logistic_conjugate_loss(u, y) is the supremum of u z - loss(z, y): an upper bound always, attained up to 0.00003 (exactly, if the dual variable is not within 1e-10 of the end points), and infinite exactly if there is no bound.", "quantifier": "all arguments, labels 1 and -1, all scores", "why_tests_cant": "a supremum over all scores", "anchors": ["vl/svm.c:1780-1796"]}
{"id": "C245", "title": "Logistic dual update is feasible and close to the solution", "statement": "vl_svm_logistic_dca_update returns a feasible step which differs by at most 1/64 from the one that minimises the documented objective.", "quantifier": "all dual variables, scores, norms and labels", "why_tests_cant": "the minimiser has no closed form and the result mixes bisection and clipped Newton steps", "anchors": ["vl/svm.c:1798-1862"]}
{"id": "C246", "title": "Logistic dual updates never make the dual objective worse", "statement": "The dual objective of the step returned by vl_svm_logistic_dca_update is at least as good as that of leaving the dual variable alone.", "quantifier": "all dual variables, scores, norms and labels", "why_tests_cant": "needs arguments whose solution is very close to an end of the interval", "anchors": ["vl/svm.c:1827-1831", "vl/svm.c:1849-1861"]}
{"id": "C247", "title": "Data sets with a kernel map behave as the expanded data", "statement": "With a homogeneous kernel map, the inner product and the accumulation of a VlSvmDataset are those of the vectors expanded by the map, of the reported dimension.", "quantifier": "all maps, data, models and multipliers", "why_tests_cant": "any map and dimension", "anchors": ["vl/svmdataset.c:200-207", "vl/svmdataset.c:357-404"]}
{"id": "C248", "title": "Rendered HOG features are the weighted sum of the glyphs", "statement": "A pixel of the image of vl_hog_render is its previous value plus the sum of the glyphs of its cell times the weights of the orientations, clamped to the range of the weights and zero; the weight is the sum of the three (UoCTTI) or four (Dalal-Triggs) components of the orientation.", "quantifier": "all features, glyphs, sizes and both variants", "why_tests_cant": "any image; pointer arithmetic over cells of all sizes", "anchors": ["vl/hog.c:410-495"]}
{"id": "C249", "title": "HOG glyphs are bars through the center, stored within bounds", "statement": "For each orientation the glyph is one exactly on the bar through its center with the slope and skipped ends of the orientation, transposed if the object is; no pixel is written outside.", "quantifier": "all glyph sizes, numbers of orientations and slopes of absolute value at most one", "why_tests_cant": "all slopes; writes out of bounds may go unnoticed", "anchors": ["vl/hog.c:271-312"]}
{"id": "C250", "title": "vl_hog_render stores the image in any buffer", "statement": "The image computed by vl_hog_render does not depend on the previous contents of the output buffer.", "quantifier": "all buffers", "why_tests_cant": "tests render into cleared buffers", "anchors": ["vl/hog.c:412-419", "vl/hog.c:473-478"]}
{"id": "C251", "title": "Options of drivers split into protocol and pattern", "statement": "vl_file_meta_parse activates the file, sets the protocol if one is given and known, stores the rest of the argument as pattern if it is not empty, and reports an unknown protocol or a pattern that does not fit; other fields are kept.", "quantifier": "all arguments and buffer sizes", "why_tests_cant": "all strings, including those at the buffer size", "anchors": ["src/generic-driver.h:63-96"]}
{"id": "C252", "title": "vl_file_meta_open opens the file named by the pattern", "statement": "The name is the pattern with the basename for each percent sign; if it does not fit an overflow is reported and no file is opened; otherwise the file of that name is opened and a failure reported as an input-output error.", "quantifier": "all patterns, basenames and buffer sizes", "why_tests_cant": "all strings, including those at the buffer size", "anchors": ["src/generic-driver.h:110-138"]}
{"id": "C253", "title": "Binary files of drivers are portable", "statement": "Numbers written by vl_file_meta_put_double with the binary protocol are read back unchanged by vl_file_meta_get_double, on hosts of the same or of different byte order, each write reporting success.", "quantifier": "all sequences of doubles, both byte orders of writer and reader", "why_tests_cant": "tests run on one host", "anchors": ["src/generic-driver.h:164-188", "src/generic-driver.h:237-264", "vl/host.h:587-611"]}
{"id": "C254", "title": "vl_file_meta_put_double reports success for a number written", "statement": "If a number is written completely, VL_ERR_OK is returned.", "quantifier": "all numbers, both protocols", "why_tests_cant": "callers ignore the result", "anchors": ["src/generic-driver.h:164-188"]}
{"id": "C255", "title": "vl_file_meta_get_double reports the end of a file", "statement": "At the end of the file VL_ERR_EOF is returned.", "quantifier": "both protocols", "why_tests_cant": "needs the binary protocol", "anchors": ["src/generic-driver.h:237-264"]}
{"id": "C256", "title": "The sift driver reads binary files of frames", "statement": "A file of frames in the binary protocol is accepted by the option to read frames.", "quantifier": "all files", "why_tests_cant": "tests use text files", "anchors": ["src/sift.c:548-574", "src/generic-driver.h:237-264"]}
{"id": "C257", "title": "The sift driver reads the frames of a text file", "statement": "With the ASCII protocol the frames read are the groups of four numbers of the text in order; a last group of three numbers is dropped, and one or two numbers left over make the file malformed.", "quantifier": "all texts of numbers", "why_tests_cant": "all lengths of files", "anchors": ["src/sift.c:548-574"]}
{"id": "C258", "title": "A kd-forest survives the conversion to a MATLAB structure", "statement": "The forest built from data, converted by vl_kdtreebuild to a structure and rebuilt from it by vl_kdtreequery, has the same nodes in use (children, parents, split dimensions, thresholds, bounds), the same data in its leaves and the same sizes.", "quantifier": "all data, numbers of trees and random choices, within the ranges of the integer classes", "why_tests_cant": "all trees; no test compares the two objects", "anchors": ["toolbox/misc/kdtree.h:64-181", "toolbox/misc/kdtree.h:195-453", "toolbox/misc/kdtree.h:26-51"]}
{"id": "C259", "title": "Queries to a converted kd-forest give the same results", "statement": "Every sequence of queries to the forest rebuilt from a structure gives the results (neighbours, distances, numbers of comparisons) that it gives for the forest built from the data.", "quantifier": "all data, trees, queries, limits on comparisons and metrics", "why_tests_cant": "all trees and sequences of queries", "anchors": ["toolbox/misc/kdtree.h:195-453", "vl/kdtree.c:773-847"]}
{"id": "C260", "title": "Rebuilding a kd-forest from any structure is safe", "statement": "Whatever the contents of the arrays of a structure, if each tree has at least one node, rebuilding it accesses no memory out of bounds and ends, with an error or with a forest whose nodes have children among its nodes.", "quantifier": "all contents and sizes of arrays", "why_tests_cant": "all malformed structures, including cycles", "anchors": ["toolbox/misc/kdtree.h:26-51", "toolbox/misc/kdtree.h:302-453"]}
{"id": "C261", "title": "Inconsistent kd-forest structures are reported", "statement": "A structure that is accepted describes trees over the data: queries to it stay in bounds, no node has two parents; a structure without nodes is reported.", "quantifier": "all contents and sizes of arrays", "why_tests_cant": "needs malformed structures", "anchors": ["toolbox/misc/kdtree.h:378-448"]}
{"id": "C262", "title": "A tree of integer k-means survives its MATLAB structure", "statement": "The structure returned by vl_hikmeans for a trained tree is read by vl_hikmeanspush as a tree with the same shape, depth, dimension and centers, whichever method the reader uses, and ready for quantisation.", "quantifier": "all data, sizes, depths, random choices, methods", "why_tests_cant": "recursion over trees of any size and all methods", "anchors": ["toolbox/kmeans/vl_hikmeans.c:46-99", "toolbox/kmeans/vl_hikmeanspush.c:47-148"]}
{"id": "C263", "title": "Assignments of vl_hikmeans are those of vl_hikmeanspush", "statement": "The second output of vl_hikmeans has for every datum its path through nearest centers, counted from one, and vl_hikmeanspush applied to the returned structure and the same data gives the same matrix, whichever method it uses.", "quantifier": "all data, sizes, depths, random choices, methods", "why_tests_cant": "compares two programs on all inputs", "anchors": ["toolbox/kmeans/vl_hikmeans.c:194-218", "toolbox/kmeans/vl_hikmeanspush.c:217-240"]}
{"id": "C264", "title": "vl_hikmeanspush gives paths through nearest centers", "statement": "For any data, if every node of the trained tree has centers, each column of the output is the path of the datum through the first nearest center of each node, counted from one.", "quantifier": "all data, trees and methods", "why_tests_cant": "all trees and data", "anchors": ["toolbox/kmeans/vl_hikmeanspush.c:217-240"]}
{"id": "C265", "title": "Structures of trees are read if and only if documented", "statement": "A structure whose matrices are consistent is read, as the tree it represents, exactly if all its centers are INT32 matrices with the same positive number of rows and at most K columns and its subtrees correspond to the centers; otherwise an error is raised.", "quantifier": "all structures", "why_tests_cant": "all malformed structures", "anchors": ["toolbox/kmeans/vl_hikmeanspush.c:47-148"]}
{"id": "C266", "title": "Pushing through an accepted structure is safe", "statement": "If the structure and the data are accepted, vl_hikmeanspush accesses no memory out of bounds and every entry of the output was computed.", "quantifier": "all structures and data", "why_tests_cant": "needs malformed structures", "anchors": ["toolbox/kmeans/vl_hikmeanspush.c:135-139", "toolbox/kmeans/vl_hikmeanspush.c:176-181"]}
{"id": "C267", "title": "MaxIters limits the iterations of vl_hikmeans", "statement": "The option MaxIters of vl_hikmeans sets the maximum number of iterations of the clustering.", "quantifier": "all data and values of the option", "why_tests_cant": "equality of results for all values of the option", "anchors": ["toolbox/kmeans/vl_hikmeans.c:162-167", "toolbox/kmeans/vl_hikmeans.c:195-206"]}
{"id": "C268", "title": "The depth of vl_hikmeans is the least for the leaves asked for", "statement": "The depth is at least one, a full tree of this depth has at least NLEAVES leaves, and no smaller positive depth has.", "quantifier": "all numbers of leaves and of clusters from two", "why_tests_cant": "all pairs of numbers", "anchors": ["toolbox/kmeans/vl_hikmeans.c:194"]}
{"id": "C269", "title": "vl_hikmeans generates at least NLEAVES leaves", "statement": "The depth of the recursive partition is computed so that at least NLEAVES are generated.", "quantifier": "all data", "why_tests_cant": "needs data with small clusters", "anchors": ["toolbox/kmeans/vl_hikmeans.m:6-7", "vl/hikmeans.c:126-136"]}
{"id": "C270", "title": "Tests for scalars and vectors accept exactly scalars and vectors", "statement": "vlmxIsScalar accepts exactly the full (non-sparse) arrays with one element, all of whose dimensions are then one. vlmxIsVector accepts exactly the full arrays of the requested number of elements (any, if negative) with at most one dimension different from one. The plain variants accept the same arrays if they are real and of class double, and no others.", "quantifier": "for all arrays with any number of dimensions and less than 2^32 elements, and all requested sizes below 2^32", "why_tests_cant": "tests try a few shapes; the loops skip dimensions equal to one from both sides", "anchors": ["toolbox/mexutils.h:333-378", "toolbox/mexutils.h:460-500"]}
{"id": "C271", "title": "Empty arrays are vectors and sizes are compared exactly", "statement": "The documentation of vlmxIsVector says that an array without elements is a vector, and that the number of elements must be the one requested.", "quantifier": "for all arrays", "why_tests_cant": "tests do not pass [] or arrays with 2^32 elements", "anchors": ["toolbox/mexutils.h:130-140", "toolbox/mexutils.h:345-378"]}
{"id": "C272", "title": "Tests for matrices and arrays accept exactly the requested sizes", "statement": "vlmxIsMatrix accepts exactly the full arrays of the requested rows and columns (any, if negative) that are empty or whose dimensions after the second are one; then the first two dimensions are rows and columns. vlmxIsArray accepts exactly the arrays with the requested number of dimensions and, for each requested non-negative dimension, that dimension. Whatever word of memory follows the dimensions does not change the result.", "quantifier": "for all arrays of less than 2^32 elements, dimensions and requested sizes, and all values of the word after the dimensions", "why_tests_cant": "tests try a few shapes, and cannot control the memory after the dimensions", "anchors": ["toolbox/mexutils.h:380-458"]}
{"id": "C273", "title": "The test for matrices is safe and follows its documentation", "statement": "vlmxIsMatrix reads only the dimensions of the array; it accepts all the matrices of its documentation (flat, or empty with one of the first two dimensions zero) and only those.", "quantifier": "for all arrays", "why_tests_cant": "the read past the end is not observed by tests; empty 3-D arrays are rare", "anchors": ["toolbox/mexutils.h:140-150", "toolbox/mexutils.h:380-417"]}
{"id": "C274", "title": "Strings are recognised, and compared without regard to case", "statement": "vlmxIsString accepts exactly the character arrays with two dimensions and one row, or empty, of the requested length. vlmxCompareToStringI orders the array and the C string as the dictionary orders their lower case forms; vlmxIsEqualToStringI holds exactly when these are equal.", "quantifier": "for all character arrays and all C strings", "why_tests_cant": "tests compare a few words; prefixes and the order need all strings", "anchors": ["toolbox/mexutils.h:518-540", "toolbox/mexutils.h:670-720"]}
{"id": "C275", "title": "Options of a MEX function are parsed exactly, and parsing ends", "statement": "Repeated calls of vlmxNextOption give exactly the list of options in the arguments: each a name of the table, compared without regard to case, followed by its argument if it takes one. An error is raised exactly if the arguments are not such a list. Each call advances, reads only existing arguments and gives a code that is not negative, so the usual loop ends.", "quantifier": "for all argument lists, tables ended by a null name and starting positions", "why_tests_cant": "tests use short lists of valid options", "anchors": ["toolbox/mexutils.h:735-823"]}
{"id": "C276", "title": "VL_TWISTER returns the array asked for, of the next numbers of the generator", "statement": "VL_TWISTER(), VL_TWISTER(N), VL_TWISTER(M,N,P,...) and VL_TWISTER([M N P ...]) return arrays of size 1 x 1, N x N and M x N x P x ...; their elements are the next numbers of the generator with 53 bits of precision, in [0,1), each made of two successive words. The forms with scalars and with a vector are the same.", "quantifier": "for all states of the generator, all dimensions and up to 29 of them", "why_tests_cant": "tests check sizes and a few numbers, not all states", "anchors": ["toolbox/misc/vl_twister.c:52-120", "toolbox/misc/vl_twister.m:1-6"]}
{"id": "C277", "title": "The state of the generator can be read and restored", "statement": "VL_TWISTER('STATE') returns 625 words and does not change the generator. VL_TWISTER('STATE', STATE) with these words, whatever happened in between, makes the generator the same as it was, so that all later numbers are the same. This applies to every generator from which a number was drawn or that was seeded.", "quantifier": "for all states with an index of at most 624, and all generators in between", "why_tests_cant": "a test can only compare a few draws after a few states", "anchors": ["toolbox/misc/vl_twister.c:134-155"]}
{"id": "C278", "title": "Every state that can be read can be restored, and unusable states are reported", "statement": "The words returned by VL_TWISTER('STATE') can always be given back to restore the generator, and arguments that are neither a seed, a state nor a key raise an error.", "quantifier": "for all generators and arguments", "why_tests_cant": "a test suite that first draws numbers never sees a fresh generator", "anchors": ["toolbox/misc/vl_twister.c:142-169", "vl/random.c:131-136"]}
{"id": "C279", "title": "VL_TWISTER seeds the generator by a number or by a key", "statement": "VL_TWISTER('STATE', X) with a scalar seeds the generator exactly as vl_rand_seed with the integer part of X; with a vector of two to 624 numbers exactly as vl_rand_seed_by_array with these words. The result does not depend on the past of the generator. The word STATE is recognised in any case.", "quantifier": "for all scalars and vectors of numbers from 0 to 2^32 - 1 and all generators", "why_tests_cant": "tests try a few seeds", "anchors": ["toolbox/misc/vl_twister.c:127-168"]}
{"id": "C280", "title": "Seeding VL_TWISTER is safe for all arguments", "statement": "No scalar and no array of class DOUBLE given as seed or key makes VL_TWISTER read memory out of bounds or never written, or convert a number out of range.", "quantifier": "for all arguments", "why_tests_cant": "the reads are not observed by tests", "anchors": ["toolbox/misc/vl_twister.c:143-168", "vl/random.c:170-200"]}
{"id": "C281", "title": "Values of null probability are joined into a full tree", "statement": "With the option ClusterNull, vl_aib returns a full binary tree of all the values: the values of null probability are merged one after the other by the first internal nodes, the result is joined to one of the two values of the first merge, and the merges found by AIB follow unchanged and in the same order; without such values the tree is returned as it is.", "quantifier": "For all joint probabilities with at least two values of positive probability, and all numbers and positions of the null ones.", "why_tests_cant": "Which nodes are renumbered depends on the positions of null values and on the order of merges; tests have a few matrices, the tree must be well formed for all.", "anchors": ["toolbox/aib/vl_aib.c:51-172"]}
{"id": "C282", "title": "Costs after joining null values", "statement": "With ClusterNull, the returned costs have one entry per merge of the new tree: the initial cost first, and the costs of the merges found by AIB last, in order; merging values of null probability should leave the cost at its initial value.", "quantifier": "For all numbers of values and of null values, and all costs.", "why_tests_cant": "Tests look at the tree, not at the costs of merges without loss.", "anchors": ["toolbox/aib/vl_aib.c:174-184", "toolbox/aib/vl_aib.c:43-44"]}
{"id": "C283", "title": "ClusterNull with fewer than two occurring values", "statement": "With ClusterNull, vl_aib does not write outside the array of parents, whatever the probabilities.", "quantifier": "For all joint probabilities with at most one value of positive probability.", "why_tests_cant": "A write one past the end of an array of MATLAB goes unnoticed in tests.", "anchors": ["toolbox/aib/vl_aib.c:51-172", "toolbox/aib/vl_aib.c:281-283"]}
{"id": "C284", "title": "Numbers of nodes in MATLAB", "statement": "vl_aib returns numbers of nodes from one on: each merged node has the number of its parent, the root has parent one, and values of null probability and unused entries have zero.", "quantifier": "For all merge trees, all numbers of values and of merged values.", "why_tests_cant": "Tests check a few trees.", "anchors": ["toolbox/aib/vl_aib.c:285-294", "toolbox/aib/vl_aib.m:26-38"]}
{"id": "C285", "title": "Batches of queries to a kd-forest", "statement": "vl_kdforest_query_with_array gives, for each query, the neighbours that a query alone must give: part number q of the indexes and distances answers query q, missing neighbours are marked by the largest index and NaN, and the number returned is the total of comparisons; no element outside the arrays is touched, whatever the number of threads and the assignment of queries to them.", "quantifier": "For all data, forests, queries, numbers of neighbours and threads, budgets, and all assignments and orders of queries.", "why_tests_cant": "The assignment of queries to threads differs between runs; tests see a few of them.", "anchors": ["vl/kdtree.c:869-942"]}
{"id": "C286", "title": "Indexes returned by vl_kdtreequery", "statement": "vl_kdtreequery returns, for each query, distinct numbers of columns of the data between one and their number, then zeros for the neighbours that were not found.", "quantifier": "For all data of fewer than 2^32 - 1 columns, all numbers of neighbours and budgets.", "why_tests_cant": "The mark of missing neighbours becomes zero by overflow of 32-bit numbers only; tests rarely ask for more neighbours than data.", "anchors": ["toolbox/misc/vl_kdtreequery.c:126-143"]}
{"id": "C287", "title": "Transposing SIFT descriptors is an involution that mirrors orientations and rows", "statement": "transpose_descriptor (and flip_descriptor of vl_covdet) moves the entry of orientation t, column i and row j to orientation -t modulo 8, column i and row 3-j; it writes all 128 entries of the destination and nothing else, and applied twice it gives the descriptor back.", "quantifier": "for all source and destination arrays of at least 128 entries and all entry types", "why_tests_cant": "a test compares a few descriptors; the statement is over all contents and both applications", "anchors": ["toolbox/sift/vl_sift.c:68-85", "toolbox/sift/vl_siftdescriptor.c:52-69", "toolbox/sift/vl_covdet.c:169-186"]}
{"id": "C288", "title": "vl_siftdescriptor describes the image itself, not its transpose", "statement": "For a 2xMxN array of gradient magnitudes and angles, stored by columns, and a frame (x, y, sigma, angle) with coordinates from 1, the descriptor returned (before multiplication by 512) is the SIFT descriptor of the image by rows: spatial bins in the frame of the keypoint with x along columns, orientations relative to the angle, normalised, cut and normalised; computing on the transposed image with angles pi/2 - a and transposing the result changes nothing.", "quantifier": "for all gradients, sizes, frames on the image and not in its last column, and all sine, cosine with the identities of the quarter turn", "why_tests_cant": "tests compare with stored results for one image; they cannot show that the two transpositions cancel for all images and frames", "anchors": ["toolbox/sift/vl_siftdescriptor.c:151-213", "vl/sift.c:1753-1915"]}
{"id": "C289", "title": "Descriptors of vl_siftdescriptor are determined by its arguments", "statement": "The descriptors returned by vl_siftdescriptor depend on GRAD, FRAMES and the options only.", "quantifier": "for all gradients and frames", "why_tests_cant": "the contents of an uninitialised local array vary between runs and builds; a test sees one of them", "anchors": ["toolbox/sift/vl_siftdescriptor.c:199-213", "vl/sift.c:1787-1793"]}
{"id": "C290", "title": "Byte entries of descriptors saturate", "statement": "Entries of class uint8 are 512 times the entries of the descriptor, rounded down, and at most 255; the conversion never wraps.", "quantifier": "for all non-negative entries", "why_tests_cant": "a wrapped conversion shows only for entries above 255/512", "anchors": ["toolbox/sift/vl_siftdescriptor.c:215-222", "toolbox/sift/vl_sift.c"]}
{"id": "C291", "title": "check_sorted accepts exactly frames sorted by scale", "statement": "check_sorted returns true exactly when the scales of the frames do not decrease, for any number of frames including none, and reads only those frames.", "quantifier": "for all numbers and lists of frames", "why_tests_cant": "tests cover a few lists", "anchors": ["toolbox/sift/vl_sift.c:97-126"]}
{"id": "C292", "title": "vl_imsmooth filters rows and columns with a normalised Gaussian and subsamples", "statement": "For an image of M rows, N columns and K channels the output has floor((M-1)/step)+1 rows and floor((N-1)/step)+1 columns; row i, column j of each channel is the sum around row i*step and column j*step, padded, with normalised Gaussian weights of half width ceil(4 sigma) in both directions. Contents of fresh arrays do not matter. With step 1 and sigma below 0.01 the image itself is returned.", "quantifier": "for all images, channels, sigma, steps and paddings", "why_tests_cant": "tests compare with conv2 on one image; a swapped size or stride shows only for non-square images and steps above one", "anchors": ["toolbox/imop/vl_imsmooth.c:28-125", "toolbox/imop/vl_imsmooth.c:292-358"]}
{"id": "C293", "title": "vl_imsmooth with the triangular kernel", "statement": "With the triangular kernel the weights are 1,...,F,...,1 over F*F in both directions, F being sigma rounded down and at least 1, with the same sizes and subsampling.", "quantifier": "for all images, sigma, steps and paddings", "why_tests_cant": "as above", "anchors": ["toolbox/imop/vl_imsmooth.c:103-118"]}
{"id": "C294", "title": "Smoothing stays within the range of the image", "statement": "Values of the smoothed image lie between any bounds on the values of the image (and on zero, if padded by zeros), with both kernels, all steps and all channels; so constant images padded by continuity are kept.", "quantifier": "for all images, bounds, kernels, sigma and steps", "why_tests_cant": "a universally quantified inequality", "anchors": ["toolbox/imop/vl_imsmooth.c:28-125"]}
{"id": "C295", "title": "Smoothing commutes with transposition", "statement": "The smoothed transpose of an image is the transpose of the smoothed image, so that the order of the two passes and the layout by columns do not matter.", "quantifier": "for all images, kernels, sigma, steps and paddings", "why_tests_cant": "a relation between two runs over all images", "anchors": ["toolbox/imop/vl_imsmooth.c:43-63"]}
{"id": "C296", "title": "Smoothed empty images are empty", "statement": "vl_imsmooth of an image without rows or columns is an image without rows or columns.", "quantifier": "for all steps", "why_tests_cant": "needs an empty image together with subsampling; the size wraps around in 64 bits", "anchors": ["toolbox/imop/vl_imsmooth.c:298-299"]}
{"id": "C297", "title": "Float images are written as PGM in order and up to one 255th of their range", "statement": "vl_pgm_write_f writes the bytes which map the smallest value to 0 and the range of the data to 255, rounded down: bytes are between 0 and 254, larger values never get smaller bytes, and each byte gives its value back up to one 255th of the range; the contents of the new buffer do not matter.", "quantifier": "for all data, sizes and positive epsilon", "why_tests_cant": "an inequality over all pairs of pixels and all images", "anchors": ["vl/pgm.c:516-542"]}
{"id": "C298", "title": "The largest value of a float image is written as 255", "statement": "vl_pgm_write_f rescales the data to fit in the range 0-255, so that the largest value of a non-constant image is written as 255.", "quantifier": "for all data", "why_tests_cant": "one less than the expected byte at the maximum is easily taken for rounding", "anchors": ["vl/pgm.c:532-536"]}
{"id": "C299", "title": "Float images read from PGM files have values in [0,1]", "statement": "vl_pgm_read_new_f returns the pixels divided by the largest value of the file, between 0 and 1, for every valid PGM file with one byte per pixel.", "quantifier": "for all files", "why_tests_cant": "a test reads a few files", "anchors": ["vl/pgm.c:442-464"]}
{"id": "C300", "title": "Arrays own their data and envelopes do not", "statement": "Creating a numeric array of at most 16 dimensions and deleting it frees exactly the two blocks that were allocated, each once, and leaves all other blocks alone; creating and deleting an envelope frees the structure only and never the wrapped data; deallocating the data twice is harmless.", "quantifier": "all types, dimensions and heaps", "why_tests_cant": "double frees and leaks are invisible to checks of outputs", "anchors": ["vl/array.c:50-132", "vl/array.c:148-206"]}
{"id": "C301", "title": "The data of an array have room for all of its elements", "statement": "The block allocated by vl_array_init has as many bytes as the elements of the array occupy and the number of elements is the product of the dimensions. Claimed without a bound on the product.", "quantifier": "all types and dimensions", "why_tests_cant": "overflowing products need dimensions beyond the memory of a test machine", "anchors": ["vl/array.c:22-62", "vl/generic.h:84-99"]}
{"id": "C302", "title": "MATLAB arrays survive the round trip through numeric arrays", "statement": "A numeric MATLAB array, enveloped in a VlArray and copied to a new MATLAB array, has the same class, dimensions and bytes, and the envelope shares the data of the original. Claimed for MATLAB arrays of any number of dimensions.", "quantifier": "all classes, dimensions and contents", "why_tests_cant": "tests use few classes and two dimensions", "anchors": ["toolbox/mexutils.h:566-646"]}
{"id": "C303", "title": "Different data types have different names", "statement": "vl_get_type_name returns different names for different data types.", "quantifier": "all pairs of types", "why_tests_cant": "names are only printed", "anchors": ["vl/generic.h:57-73"]}
{"id": "C304", "title": "K-means objects release what they own", "statement": "Whatever sequence of setting centers, resetting and computing distances of centers is applied to a k-means object, it owns exactly its structure, its centers and the distances of the centers; deleting it frees each once, and blocks of the user are untouched.", "quantifier": "all sequences of operations, sizes and heaps", "why_tests_cant": "leaks and double frees depend on sequences of calls", "anchors": ["vl/kmeans.c:385-425", "vl/kmeans.c:476-521", "vl/kmeans.c:990-994", "vl/kmeans.c:1805-1826"]}
{"id": "C305", "title": "Copies of k-means objects are deep and complete", "statement": "vl_kmeans_new_copy gives an object with equal centers, distances of centers and parameters that shares no memory with the original: deleting either leaves the other as it is.", "quantifier": "all objects", "why_tests_cant": "sharing and unset fields show only later, if at all", "anchors": ["vl/kmeans.c:433-467"]}
{"id": "C306", "title": "Centers set by the user are copied", "statement": "vl_kmeans_set_centers stores a copy of the centers in a block of the object, for any centers, including those returned by vl_kmeans_get_centers of the same object.", "quantifier": "all objects, centers and sizes", "why_tests_cant": "use of freed memory often goes unnoticed", "anchors": ["vl/kmeans.c:509-521", "vl/kmeans.c:1805-1826"]}
{"id": "C307", "title": "Gaussian mixtures release what they own", "statement": "Whatever was done to a Gaussian mixture, deleting it frees each block it allocated once.", "quantifier": "all sequences of operations, sizes and heaps", "why_tests_cant": "leaks are invisible to checks of outputs", "anchors": ["vl/gmm.c:336-424", "vl/gmm.c:631-638", "vl/gmm.c:1333-1358"]}
{"id": "C308", "title": "K-means objects given to mixtures stay with the user", "statement": "A Gaussian mixture never frees or changes blocks of the user, nor the k-means object given to it; an object made by the mixture itself is freed when another is set.", "quantifier": "all sequences of operations, sizes and heaps", "why_tests_cant": "ownership depends on sequences of calls", "anchors": ["vl/gmm.c:391-424", "vl/gmm.c:631-638", "vl/gmm.c:1333-1358"]}
{"id": "C309", "title": "Distance transforms of matrices are minima over all pixels", "statement": "vl_imdisttf returns at each pixel the minimum over all pixels of the value plus the weighted squared distance, and the index (from 1, by columns) of a pixel that attains it; negative coefficients are refused.", "quantifier": "all matrices, sizes and parameters with coefficients 0 or above the rounding unit", "why_tests_cant": "the minimum ranges over all pixels and the passes are composed in place", "anchors": ["toolbox/imop/vl_imdisttf.c:20-127"]}
{"id": "C310", "title": "Offsets of distance transforms are as documented", "statement": "With PARAM, vl_imdisttf minimises I(u,v) + PARAM(1) (u - x - PARAM(2))^2 + PARAM(3) (v - y - PARAM(4))^2.", "quantifier": "all matrices and parameters", "why_tests_cant": "tests use no offsets", "anchors": ["toolbox/imop/vl_imdisttf.m:11-15", "toolbox/imop/vl_imdisttf.c:73-110"]}
{"id": "C311", "title": "Matrix of comparisons in MATLAB", "statement": "vl_alldist called with real matrices X and Y of one class, single or double, and one height returns a matrix of that class with one row for each column of X and one column for each column of Y. Entry (i, j) is the comparison of column i of X with column j of Y. With X alone it is the comparison of its columns with themselves. The comparison is the one named by the last option in any letter case, and the squared Euclidean distance without options. Empty vectors give zeros, and matrices of different classes or heights are refused.", "quantifier": "for every class, height, numbers of columns, comparison function and list of options", "why_tests_cant": "Tests fix a few sizes and one option at a time; the claim holds for all sizes, all lists of options and all capitalisations of names.", "anchors": ["toolbox/misc/vl_alldist.c:52-188", "toolbox/misc/vl_alldist.c:33-49"]}
{"id": "C312", "title": "Metrics of vl_alldist", "statement": "Every metric in the table of options of vl_alldist, which has the documented names LINF and L0, is accepted; any other name is refused with an error.", "quantifier": "for every matrix and option", "why_tests_cant": "The claim is about all options; tests call only the metrics that work.", "anchors": ["toolbox/misc/vl_alldist.c:33-49", "toolbox/misc/vl_alldist.c:107-122", "toolbox/misc/vl_alldist2.m:14-23"]}
{"id": "C313", "title": "Members of enumerations named in MATLAB", "statement": "vlmxDecodeEnumeration returns the first member of the enumeration whose name is the string, in any letter case if asked to, and null if there is none. It raises an error exactly for arrays that are not rows of characters and for strings of 1024 characters or more.", "quantifier": "for every array of ASCII characters, enumeration and letter case", "why_tests_cant": "Tests name a few members; the claim is about all strings and all tables, and where the search of a table stops.", "anchors": ["toolbox/mexutils.h:831-853", "vl/stringop.c:408-439"]}
