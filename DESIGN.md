# Formal model of VLFeat in Rocq (Coq 8.16.1)

This file says what is modelled, how each property of `properties.jsonl` is
proved, and what has to be trusted. Sources are under `rocq/theories`, logical
name `Verif`.

## Conventions

* One group of files per C module: `X_Model.v` (the code, function by function,
  each definition citing file and lines in /repo), `X_Spec.v` (a small
  specification that does not mention the model's helpers), `X_Proofs.v`
  (lemmas), `X_Props.v` (only the property theorems, the concrete examples that
  meet their hypotheses, and `Print Assumptions`).
* Arrays are lists; a read or write outside the array is the distinct outcome
  `None` (undefined behaviour), never a default value. Theorems show it does not
  occur, or exhibit the input on which it does.
* Loops are structural recursion or recursion with explicit fuel. Running out of
  fuel is also a distinct outcome and is excluded by theorem.
* Fixed-width unsigned arithmetic is written with explicit `mod 2^w` where
  wrap-around can matter.
* Floating point code is modelled in exact arithmetic (Z, Q or R). This is
  a simplification: rounding, overflow to infinity and NaN are not modelled. Each model
  file says so where it applies.
* Randomness enters as an arbitrary stream of draws, and callbacks as arbitrary
  functions, so theorems hold for all of them. The generator itself is modelled
  bit by bit in `Random_*`.
* When the documented property is false of the code, the file has a theorem
  `..._refuted` giving a witness, and, where possible, a theorem for the part
  that does hold (suffix `_partial`).

## What is modelled, module by module

Everything is by reading the C text; nothing was compiled or run. "Exact" means
unbounded rationals (Coq's canonical `Qc`) or integers in place of floating
point or machine integers. Library functions of libm that have no rational
value (exp, log, sqrt, sin, acos, pow, ...) are arbitrary functions the theorems
quantify over, with hypotheses only where a theorem states them.

| Files (prefix) | C code | Properties | Simplifications, and what is left out |
|---|---|---|---|
| Base, Loop, Rat, Order_Spec, Word_Spec | - | - | option monad, checked arrays, loops, rationals |
| Isqrt | mathop.h integer square root | C07 | words are integers with explicit `mod 2^w` |
| Heap | heap-def.h | C01 | element type and comparison arbitrary |
| Qsort | qsort-def.h | C02 | comparison arbitrary; fuel excluded by theorem |
| Random | random.c, random.h | C04-C06 | bit-exact words; real-valued draws as exact rationals |
| Shuffle | shuffle-def.h, vl_rand_permute_indexes | C03, C56 | random numbers are an arbitrary stream |
| Str | stringop.c | C08-C11, C57, C67 | byte lists; sizes as naturals, wrap-around of the length counter not modelled |
| Pgm | pgm.c | C12, C13, C58, C59 | 8 and 16 bit paths; the float variants are in PgmFloat |
| Getopt | getopt_long.c | C14, C60 | messages on stderr not modelled |
| Lock | generic.c/host.c global lock, POSIX | C26 | small-step semantics of threads; Windows version not modelled |
| Thread | generic.c thread state | C27 | calls atomic; destruction of blocks not modelled |
| KdSearchers, KdTree, KdForest | kdtree.c | C15-C18, C61-C63 | exact integers; random choices and sorting are oracles constrained by theorem hypotheses |
| Mser* | mser.c | C19-C21, C64, C65 | images below 2^31 pixels; variation compared exactly; ellipse fit exact |
| ImOp, ImDist | imopv.c | C28-C31, C66 | any commutative ring (so exact); 32-bit integer version modular; source and destination distinct arrays; SIMD alignment is an oracle; distance transform over finite rationals |
| Vec | mathop.c vector comparisons and their SSE/AVX versions | C40, C41, C68-C70 | exact arithmetic, addresses as numbers with faults of aligned loads |
| Scale | scalespace.c | C48, C49, C71-C73 | any ring with 1/2; smoothing itself not modelled, see ScaleBuild for its amount |
| ScaleBuild | scalespace.c: vl_scalespace_put_image and the functions it calls | C241, C242 | images are abstract with operations of downsampling, upsampling and smoothing (the pixels are in Scale and ImOp); an assumption on these operations says that they change step and scale as a sampled Gaussian scale space does; real numbers |
| Gauss | mathop.c linear systems | C50 | exact; no NaN or infinity |
| Liop | liop.c | C35 | the histogram: permutations and weights are inputs, see LiopFull for the rest |
| LiopFull, LiopInv_Proofs | liop.c: vl_liopdesc_new, vl_liopdesc_process | C233-C240 | rationals; cos and sin of the directions of neighbours and the square root are parameters; all pixels are sampled and sorted before the histogram is filled; setters, getters and vl_liopdesc_new_basic are not modelled |
| Lbp | lbp.c | C34, C74 | pixels of any type and comparison; weights exact; sqrt arbitrary |
| Homker | homkermap.c | C47, C75 | exact; library functions arbitrary; the evaluation loop also under rounded subtraction |
| Vlad | vlad.c | C46 | exact; the parallel loop is any order of whole cluster iterations |
| Hog | hog.c | C36, C37, C76, C77 | exact; sqrt, acos, orientation vectors arbitrary |
| HogRender | hog.c: glyphs of vl_hog_new, vl_hog_render | C248-C250 | exact; direction, slope and skipped ends of each bar are inputs (computed with cosines in the code); the two loops over the pixels of a cell share one definition |
| FileMeta | src/generic-driver.h; src/sift.c:548-574 (reading frames) | C251-C257 | exact; texts printed and scanned by the C library, and fopen, are parameters; growth of the frame buffer and the sort after reading are not modelled |
| KdArray | toolbox/misc/kdtree.h (used by vl_kdtreebuild and vl_kdtreequery) | C258-C261 | exact, on the model of KdTree, with the conversions to 32 bits; classes and presence of fields not modelled; the depth and the values of the data index, not set by the code, are arbitrary |
| HikmArray | toolbox/kmeans/vl_hikmeans.c, vl_hikmeanspush.c: structures, assignments, depth | C262-C269 | exact, on the model of Ikm; options already parsed; scalars of the structure are integers; the depth is computed with real numbers |
| MexUtil | toolbox/mexutils.h: tests of arrays, strings, options | C270-C275 | arrays are class, flags, dimensions and characters; conversions to 32 bits as in the code; the word after the dimensions, read by vlmxIsMatrix, is a parameter; characters are cut to bytes by mxGetString; messages and the conversion of VlArray not modelled |
| Twister | toolbox/misc/vl_twister.c | C276-C280 | on the models of Random and MexUtil; doubles are exact rationals; the number of outputs and memory for the result not modelled |
| AibNull | toolbox/aib/vl_aib.c (cluster_null_nodes 51-185, numbers of nodes 285-294) | C281-C284 | 32-bit indices are unbounded; messages and the parsing of options left out |
| KdBatch | kdtree.c (vl_kdforest_query_with_array 869-942), toolbox/misc/vl_kdtreequery.c (142-143) | C285-C286 | on the model of KdTree; a query is one step, so threads are interleaved between queries only; links of searchers to the forest are in KdSearchers |
| SiftTranspose | toolbox/sift/vl_siftdescriptor.c:52-69, 151-222; vl_sift.c:68-126 (transpose_descriptor, korder, check_sorted); vl_covdet.c:169-186 | C287-C291 | exact rationals; arguments parsed by MATLAB left out; one frame at a time; uninitialised local arrays are parameters |
| Imsmooth | toolbox/imop/vl_imsmooth.c:28-125, 292-358 | C292-C296 | exact rationals, so single and double are one; options parsed by MATLAB left out; channels are parts of the arrays; the scalar convolutions of ImOp |
| PgmFloat | vl/pgm.c:442-464, 516-542 (vl_pgm_read_new_f, vl_pgm_write_f) | C297-C299 | exact rationals; infinite extrema are None; files as in Pgm |
| Varray | vl/array.c, vl/array.h, vl/generic.h:57-99, toolbox/mexutils.h:566-646 | C300-C303 | the heap is a list of blocks of bytes, allocation never fails; the number of dimensions is the length of the list of dimensions; structures are blocks of unspecified bytes |
| ClusterLife | vl/kmeans.c:385-482, 509-521, 990-994, 1805-1826, vl/gmm.c:336-424, 631-638, 1333-1358 | C304-C308 | heap as in Varray; fields beside the block of the structure; fields never written are None; of clustering and Elkan's method only the allocations that outlive them; clustering by an object of the user is not modelled |
| ImDisttf | toolbox/imop/vl_imdisttf.c:20-127 (mexFunction) | C309-C310 | exact rationals as in ImDist; the checks of the numbers and classes of arguments are not modelled |
| Alldist | toolbox/misc/vl_alldist.c:17-188 (mexFunction, table of options) | C311-C312 | the comparison functions are parameters (modelled in Vec); the elements of the arrays are given apart from their descriptions; all options are read before the switch runs on them |
| EnumDecode | toolbox/mexutils.h:831-853 (vlmxDecodeEnumeration) | C313 | on Str and MexUtil; ASCII characters |
| Kmeans* | kmeans.c | C42-C45, C78-C83 | exact; random stream and kd-forest are oracles; parallel loops in order; in Elkan's algorithm sqrt is any function that never underestimates |
| Aib* | aib.c | C24, C25, C84, C85 | exact; log arbitrary; BETA_MAX is `None`, above every loss; fresh memory arbitrary |
| Dsift | dsift.c | C38, C39, C86-C88 | exact; unbounded integers; gradient direction arbitrary; fresh memory arbitrary |
| Svm (other than SvmLog) | svm.c, svmdataset.c (plain vectors) | C53-C55, C89-C92 | exact; no kernel map; permutations are inputs; logistic loss in SvmLog; infinite steps and division by zero are `None` |
| SvmLog | svm.c: logistic loss, derivative, conjugate, dual update; svmdataset.c: data with a kernel map | C243-C247 | real numbers, no rounding, no overflow of exp; the kernel map is any function with results of one size (Homker has the actual one) |
| Ikm*, Hikm* | ikmeans.c, hikmeans.c | C22, C23, C93-C100 | accumulators unbounded (distances assumed below VL_IKMACC_MAX in the theorems that need it); random order and fresh memory are inputs; vl_ikm_init_rand and the verbosity flag not modelled |
| Rodrigues* | rodrigues.c | C51, C101-C103 | real numbers, no rounding; acos total; the NaN derivative is `None` |
| Slic* | slic.c | C33, C104-C109 | exact; labels unbounded; fresh memory is an input |
| Quickshift | quickshift.c | C32, C110-C113 | exact; exp and sqrt arbitrary; the infinite distance is `None`; sigma zero not modelled (division is total) |
| Sift*, SiftDetect*, SiftDescr* | sift.c (all functions but setters and getters) | C52, C114-C132 | exact rationals; pow, sqrt, exp and the gradient functions arbitrary; octaves at least 2 by 2 for gradients; the keypoint array is a list and its reallocation is not visible; an infinite or undefined edge score is a failed test; the fast square root, arctangent and 2 pi are arbitrary, and positions do not overflow an int |
| Gmm* | gmm.c: E and M steps, restarts, EM, initializations, repetitions, copies | C133-C144 | real numbers, no rounding; parallel loops in any order; memory from malloc arbitrary; k-means results are inputs |
| Fisher* | fisher.c | C145-C148 | real numbers, no rounding; parallel loops in any order |
| Covdet, CovdetOri | covdet.c: feature storage, reset, suppression, dropping, orientations, Laplacian scales, octaves | C149-C165 | exact; allocation does not fail; cos, sin, pow, sqrt arbitrary; patches, gradients and frame measurements are inputs; qsort is any function that sorts |
| CovdetExt | covdet.c: vl_find_local_extrema_3/_2, vl_refine_local_extreum_3/_2, the loops of vl_covdet_detect over the extrema of an octave or a level | C166-C171 | rationals for float and double; sqrt and pow arbitrary; a score that is infinite or not a number is below no threshold; the maps of responses are inputs |
| CovdetPatch | covdet.c: vl_covdet_extract_patch_helper (level, padding, resampling) | C172-C177 | rationals for float and double; the singular values of the frame are inputs; floor of the logarithm and comparison of powers exact; allocation does not fail; one size of buffer in numbers |
| Svd, Svd2 | mathop.c: vl_svd2, vl_lapack_dlasv2; covdet.c: vl_covdet_extract_affine_shape_for_frame (loop and upright turn) | C178-C183 | real numbers, no rounding; division by zero is None; the second moments measured on a patch, atan2 and the solution of the linear system are arguments |
| ImGrad | imopv.c: vl_imgradient, vl_imgradient_polar; covdet.c: _vl_det_hessian_response, _vl_dog_response, _vl_harris_response | C184-C188 | rationals for float; image and planes separate arrays; fast square root, arc tangent and the smoothing of the Harris products are arguments |
| FastMath* | mathop.h: vl_fast_atan2, vl_mod_2pi, vl_floor, vl_fast_resqrt, vl_fast_sqrt (both precisions) | C189-C196 | real numbers; the constants of the arc tangent exact; rounding only in vl_mod_2pi (C193, the rounding functions of Flocq); the inverse square root works on bits, its two Newton steps without rounding; only positive normal arguments; the conversion of the argument of vl_fast_sqrt_d to float is not modelled |
| IHash* | toolbox/misc/vl_ihashsum.c, vl_ihashfind.c | C197-C199 | labels are lists of bytes; slots and entries of NEXT unbounded (32 bits in the code); checks of MATLAB types left out; memory always available |
| ImWarp* | toolbox/imop/vl_imwbackwardmx.c | C220-C223 | exact rationals; finite points; grids without zero steps in the theorems; checks of the arguments not modelled |
| AibHist* | toolbox/aib/vl_aibhist.c | C224-C228 | data are integral doubles; unbounded walks stop with [Running] when the fuel ends |
| AllDist* | toolbox/misc/vl_alldist2.c, class double | C229-C232 | exact rationals; the square root is a function with the properties stated; integer classes not modelled |
| LocalMax* | toolbox/misc/vl_localmax.c | C217-C219 | rational values; the array of maxima is a list, without its reallocations; no overflow of int |
| IntHist* | toolbox/misc/vl_inthist.c, inthist.tc, vl_sampleinthist.c, samplinthist.tc | C212-C216 | class UINT32 (arithmetic modulo 2^32), not DOUBLE; the checks of classes and dimensions come before; labelStride is not truncated to 32 bits |
| ErFill* | toolbox/mser/vl_erfill.c | C209-C211 | pixel values are natural numbers; the index is an integer; subscripts and neighbours are those of Mser_Model, whose code is the same |
| UbcMatch* | toolbox/sift/vl_ubcmatch.c | C200-C202 | rational numbers for all storage classes; infinity or 2^31 - 1 as initial distance; descriptors are lists; the conversion to float before the ratio test is exact |
| Bins* | toolbox/misc/vl_binsearch.c, vl_binsum.c and .def, vl_cummax.c and .def | C203-C208 | rational numbers for all storage classes, so no wrap around and no NaN; arrays are lists with their dimensions; indices are integers |
| Table | (rows and matrices stored in arrays, used by Gmm and Fisher) | | |

Parts of the repository with no model: array.c, type and error
names in generic.c, the MATLAB interface under toolbox/ except the files
listed above, the command
line drivers under src/ except what is listed under FileMeta, host.c (CPU detection), and the low-level SIMD files
except those listed under Vec and ImOp. Rounding errors of
floating point code are out of scope and no property claims a bound on them
(C189 and C195 bound the error of an approximation computed without rounding).

## Status of the properties

`MANIFEST.json` gives, for each property, its theorems and a status. "partial"
is used for two situations, told apart by the note: a part of the statement is
not proved (the note says which), or the statement is false of the code, and a
theorem `..._refuted` proves a counterexample.

## Testing of the theorems

`seeded/LOG.jsonl` records wrong versions of model definitions, what was
changed, which claim that breaks, and which theorems failed. A theorem fails
if its own proof no longer compiles, or if it rests on a lemma whose proof no
longer compiles: in the scratch copy such a lemma is admitted to let the rest
of the file compile, and `Print Assumptions` tells which theorems use it. So a
failure shows that the proof breaks, not that the statement is false of the
wrong version. Edits that no theorem noticed led to stronger theorems, also
recorded there; a few are harmless, which their entries say.

## Trusted base

* The Coq 8.16.1 kernel, including its virtual machine (`vm_compute` is used in
  examples and in some finite checks).
* The axioms printed by `Print Assumptions` beside each theorem. All theorems
  are "Closed under the global context" (no axioms) except those about real
  numbers: C68, C69, C70 (Vec), C51, C101, C102, C103 (Rodrigues) and C133 to
  C144 (Gmm), C145 to C148 (Fisher), C178 to C183 (Svd), C189 to C196 (FastMath),
  C241 (ScaleBuild), C243 to C247 (SvmLog), C268 and C269 (HikmArray). These use
  only axioms of Coq's standard library for the reals:
  `ClassicalDedekindReals.sig_not_dec`, `ClassicalDedekindReals.sig_forall_dec`,
  `FunctionalExtensionality.functional_extensionality_dep` and, through
  trigonometry, `Classical_Prop.classic`. FisherGrad_Proofs uses lemmas and the
  tactic auto_derive of the Coquelicot library, and FastMath the rounding functions
  of the Flocq library; neither adds axioms.
* No axiom, parameter or admitted lemma is declared in this development; section
  variables are all discharged.
* The correspondence between the model and the C code, which is by reading; the
  line citations are there to make it checkable.
