# Formal model of HILA in Coq: design

## Scope and method

The code in /repo (HILA, C++17 library plus the `hilapp` source-to-source
preprocessor) is read as text.  Each modelled function becomes a total Gallina
function whose comment cites the file and lines it models.  Model definitions
live in `*Model.v`, specifications that are independent of the code in
`*Spec.v`, proofs in `*Proofs.v`, and the property theorems, with nothing else,
in `*Props.v`: each is closed by `exact lemma` and followed by
`Print Assumptions`; next to each a concrete `Example` shows that a non-trivial
instance satisfies the hypotheses.

Conventions
* Dimension NDIM is arbitrary: coordinate vectors are lists, theorems are
  proved by induction on the list, not for NDIM = 2, 3, 4 only.
* Integers are unbounded unless the property is about wrap-around (seeds,
  labels, overflow of `int` in integer multiplication); there the wrap or the
  undefined outcome is explicit.
* Parallel ranks run the same program (SPMD).  A multi-rank state is a function
  from rank to local state.  MPI is modelled by its specification: reliable,
  FIFO per (source, destination, tag), collective operations compute their
  mathematical result.
* Floating-point arithmetic is replaced by exact arithmetic (Z, Q, an abstract
  ring) where the property is not about rounding; Flocq is used where it is.
* Undefined behaviour, uninitialised reads, out-of-range indices and
  non-termination (fuel exhausted) are distinct outcomes (`None` or a named
  constructor), and theorems exclude or exhibit them explicitly.
* A property the unchanged code violates is proved as `..._refuted` with a
  concrete witness, and the strongest true version is proved beside it.

## Trusted base

* Coq 8.16.1 kernel (and its VM for `vm_compute`), the standard library.
* The reading of the C++ code: no extraction, no execution of the original.
* The MPI semantics stated above; the C++ memory model is not modelled;
  GPU kernels are not modelled.
* Axioms: see the table at the end (`Print Assumptions` of each theorem);
  only standard-library axioms (if any) are used and are listed there.

## Coverage: which code is modelled

Each line gives the code in /repo (under `libraries/plumbing` unless a directory
is named) and the model file; the definitions cite the exact lines.

* `lattice.cpp` (division, site order, neighbour tables, halo lists, block and switch of lattices), `lattice.h`, `map_node_layout.cpp`: `LayoutModel`, `BlockModel`
* `setup_layout_generic.cpp`: `SetupModel`; `setup_layout_vector.cpp`: `VsetupModel`
* `field_comm.h` (gather status, start/wait of gathers, element access, shift, block copies), `com_mpi.h/.cpp` (tags, sums): `GatherModel`, `ElementModel`, `ShiftModel`, `TagModel`, `ReduceModel`
* `backend_vector/lattice_vector.h`, `backend_vector/field_storage_backend.h`: `VlayoutModel`, `VectorModel`
* `hilapp/src/codegen_cpu.cpp`, `codegen.cpp` (overlapped site loop, reductions): `OverlapModel`, `ReduceModel`
* `reduction.h`, `reductionvector.h`: `ReductionModel`, `MinmaxModel`
* `field_io.h` (binary files, subvolumes), `checkpoint.h` in `libraries/tools`: `IoModel`, `CheckpointModel`
* `memory_pool.cpp/.h`: `PoolModel`; `site_select.h`: `SelectModel`; `clusters.h`: `ClusterModel`
* `cmdline.cpp`: `CmdlineModel`; `input.cpp`, `input.h`: `InputModel` (C80-C82); `timing.cpp` (time limit): `TimelimitModel` (C83); local arrays, boxes and slices of `field_comm.h`: `LocalModel` (C84); `wilson_plaquette_action.h`, `wilson_line_and_force.h`, `improved_action.h`, `clover_action.h` of `libraries/gauge` and the updates of `suN_hmc.cpp`: `ForceModel` (C85-C88); blocking in `gaugefield.h`: `LonglinkModel` (C89); `degauss.h` and the time evolution of `sun_realtime.cpp`: `GaussModel` (C90, C91); `gradient_flow.h` (forces and measurements; not the bulk-prevention and log-plaquette actions) and `energy_and_topo_charge_clover.h`: `FlowModel` (C92, C93), `FlowstepModel` (`do_gradient_flow_adapt`, C94; that its loop ends is not proved), `StoutModel` (C95), `StoutforceModel` (C96; `mult_chexp` by its description), `StoutkModel` (C97; `chexpk` and `mult_chexpk_fast` by their description; not `stout_smeark_force_b`), `SiteindexModel` (C98), `TokensModel` (C54), `CmplxModel` (C99; exact arithmetic, not rounding or overflow; not `!=`, `polar`, `exp`, `log`, `pow` and the input and output); `shuffle.h`, `random.cpp` and the seeds of `initialize.cpp`: `RandomModel`
* `fft.h`, `fft.cpp`, `fft_fftw_transform.h` (data movement; the transform of a column is any function): `FftModel`; `spectraldensity.h` (k_binning): `BinningModel`
* `libraries/datatypes/sun_matrix.h` (reunitarisation, random matrices): `SuModel`, (Lie algebra): `AlgebraModel`, `BilinearModel`; `libraries/datatypes/su2.h`: `Su2Model` (C75, C76); `libraries/gauge/sun_overrelax.h` (suN_overrelax) and `sun_max_staple_sum_rot.h`: `OverrelaxModel` (C77, C78); `libraries/gauge/sun_heatbath.h`: `HeatbathModel` (C79); `libraries/datatypes/extended.h`: `ExtendedModel`; `libraries/datatypes/matrix_linalg.h` (determinants, LU, solve, inverse): `LinalgModel`, (eigenvalues, singular values): `EigenModel`; `libraries/datatypes/matrix.h` (arithmetic, pow, exp, altexp, mult_exp): `MatrixModel`, (chexp): `ChexpModel`, (sort, permute): `SortModel`
* `libraries/tools/multicanonical.cpp`: `MucaModel`, `MucafileModel`, `DecimalModel`; `libraries/tools/levi_civita.h`: `LeviModel`
* `libraries/hmc/integrator.h`, `hmc.h`, `gauge_field.h`: `IntegratorModel`, `GaugeModel`; `gaugefield.h`, `libraries/gauge/staples.h`, `polyakov.h`: `GaugeModel`
* `libraries/dirac/conjugate_gradient.h`: `CgModel`; `libraries/dirac/staggered.h`: `DiracModel`
* `hilapp/src/srcbuf.cpp`: `SrcbufModel`; `hilapp/src/stringops.cpp`: `WordsModel`, `CmdargsModel`

Not modelled: all GPU code (`backend_gpu`, `codegen_gpu.cpp`); the vectorclass
library; the clang-dependent analysis of `hilapp` (visitors, loop functions,
vectorisation decisions, AVX code generation); rounding of floating point
outside `ExtendedModel` and `RandomModel`; the FFTW and MPI libraries
themselves; text formatting other than the one of `DecimalModel`; the timers of
`timing.cpp` and logging; the other gauge actions, smearing and gradient flow of
`libraries/gauge`; the Wilson operator; element-wise arithmetic of the data
types unless listed above.

## Properties and how each is modelled and proved

### C01  Site ordering inside a rank is a bijection with even sites first

On every rank the map from the coordinates of the rank's sub-box to local storage indices is a bijection onto [0, number of local sites); every EVEN site is stored at an index below every ODD site, so that onsites(EVEN) and onsites(ODD) run over exactly the sites of that parity, each once, and onsites(ALL) over each local site exactly once. The inverse (index -> coordinates) returns the coordinates the index was made from.

Plan: Model `site_index`, loop ranges and `setup_nodes` as functions on lists of Z/nat of arbitrary length; prove bijection by induction on the dimension list, even-first split by counting parities.

### C02  Every lattice site is owned by exactly one rank

For every lattice size and every division of the lattice into ranks (including uneven divisions where rank boxes differ in size) the boxes of the ranks tile the lattice: every site is inside exactly one rank's box, and the rank that the owner lookup returns for the site is the rank whose box contains it.

Plan: Model `setup_node_divisors`, `node_rank`, boxes; prove tiling from floor-division monotonicity; uneven divisions included.

### C03  Block-wise rank remapping is a permutation with the right inverse

With the blocked node layout the mapping from logical node position to MPI rank is a permutation of [0, number of ranks), and the inverse mapping undoes it in both directions, for every node grid.

Plan: Model `create_remap` table construction for arbitrary grids; prove permutation by mixed-radix bijection.

### C04  Neighbour access after a gather returns the periodic neighbour

After gathering a field in direction d, reading f[X+d] at any site X of any rank returns the value the field holds at the periodic neighbour of X in direction d, whichever rank owns that neighbour, and the messages that were exchanged are pairwise consistent: what rank A packs for rank B is in the order in which B stores it, with equal lengths.

Plan: Model `create_std_gathers` site lists and neighbour indices, per-rank storage arrays with halo, pack/unpack; prove read-after-gather equals periodic neighbour.

### C05  A field read never sees stale neighbour data, whatever the history

On lattices whose sizes are even in every direction that is split between ranks, for every history of site-loop writes on any parity, explicit start_gather/wait_gather/gather calls and neighbour reads, a site loop on parity P that reads f[X+d] obtains the current value of the field at the neighbour - the lazily reused halo is never stale. Every message that was sent is received exactly once and no rank waits for a message that is never sent.

Plan: State machine per field: values, per-direction gather status, in-flight messages with contents, halo contents; invariant over an arbitrary operation list.

### C06  Odd lattice sizes: reuse of a parity-restricted halo is not sound

The staleness guarantee of C05 does not extend to lattices with an odd size in a direction split between ranks: there is a history of an EVEN gather, an EVEN write and another EVEN read after which the read returns the old neighbour value, because the wrap-around neighbour has the same parity and writing EVEN does not invalidate the EVEN halo.

Plan: Same machine with an odd lattice; concrete witness by computation (`_refuted`).

### C07  Overlapping computation with communication visits every site once and never too early

In a site loop that overlaps communication with computation, every site of the loop parity is processed exactly once; sites that need a neighbour from another rank in a direction whose gather was still in flight when the loop started are processed only after the wait.

Plan: Model of the generated two-pass loop; prove the visit list is a permutation of the loop range, and ordering relative to the wait.

### C08  Direction and coordinate arithmetic is periodic and self-inverse

opposite of opposite is the direction itself and never the direction itself; X+d-d is X and X+d is the same as moving -(-d); the modulo of a coordinate vector lies in [0,size) and is congruent; taking the periodic neighbour up and then down returns the site; parity of X+d is opposite to parity of X, and on lattices with even sizes also after periodic wrap.

Plan: Direct algebra on Z vectors and direction indices.

### C09  Blocked lattices stay rank-local and hold the subsampled field

For every blocking factor that divides the lattice, the site X' of the blocked lattice lives on the same rank as the site b*X' of the parent, even when some ranks hold no site of the blocked lattice; block_from copies value f(b*X') to X' and unblock_to writes it back to exactly those sites and leaves all other sites of the parent unchanged.

Plan: floor(b*x*n/(b*L)) = floor(x*n/L) lifted to node_rank and to the copy loops.

### C10  lattice.block / unblock nesting

lattice.block(f) followed by the same number of lattice.unblock() calls returns to the lattice one started from, for nested sequences in which the blocked sizes reached from different parents are different. When two different parents block to the same size the blocked lattice of the first parent is reused and unblock goes to the wrong parent.

Plan: State machine of the list of defined lattices with parent pointers; invariant for the restricted claim, witness for the failing one.

### C11  Automatic layout: accepted layouts are valid

When the automatic division of the lattice among N ranks succeeds, the product of the divisions over the directions is exactly N, every rank gets a non-empty box, and the ranks' boxes tile the lattice. Every box has at least two sites in every direction, except possibly in the one direction that is divided unevenly, where boxes one site thick do occur although the routine rejects them.

Plan: Model of setup_layout (prime factorisation, ghosts, slicing loop) with fuel for the outer loop; product invariant.

### C12  Automatic layout terminates

The automatic layout routine either finds a division or stops the program with a diagnostic. This fails for the code as it stands: if the first attempt (with ghost columns) fails and the second succeeds, the loop never ends.

Plan: Witness for which the model returns the out-of-fuel outcome for every fuel.

### C13  Single-site access from any rank

set_element(v, c) changes the value at coordinate c to v and no other site; get_element(c) returns on every rank the value stored at c; compound assignments combine with the current value exactly once.

Plan: Multi-rank store model; frame theorem.

### C14  Collecting and distributing elements by coordinate list

Collecting field values for a list of coordinates yields on the root exactly the values at those coordinates in list order, whatever ranks own them; distributing a list of values to a list of distinct coordinates sets exactly those sites, and collecting after distributing returns the distributed list.

Plan: Model of owner-grouped message exchange; list theorem.

### C15  Field files are independent of the rank count and round trip

Writing a field produces the same byte sequence for every division of the lattice into ranks and every write-buffer size of at least one site: the values in the global order with x running fastest. Reading that file on any division restores every site.

Plan: Chunked writer/reader over the multi-rank store.

### C16  Reading a smaller configuration replicates it periodically

Reading a configuration of a smaller lattice whose sizes divide the current sizes sets every site c to the stored value at c modulo the stored size. If a stored size does not divide the lattice size some sites are left unwritten although the whole field is marked as set.

Plan: Same reader with scaling; witness for the non-dividing case.

### C17  Shift by an arbitrary vector

f.shift(v) holds at every site X the value f(X+v) of the original for every (also negative or longer than the lattice) offset vector v; shifting by v and then by w equals shifting by v+w, and shifting by v and -v restores the field. Shifting only the sites of one parity does the same on those sites and leaves the others of the result untouched when all lattice sizes are even; with an odd size the result can depend on uninitialised memory.

Plan: Model of the step-by-step shift with direction choice; prove net displacement.

### C18  Site-loop sums and products do not depend on the rank division

After onsites(P) s += g(X), the variable s holds on every rank its old rank-0 value plus the sum of g over all lattice sites of parity P - each site counted once, the old value counted once - for every division into ranks; products likewise. Several reductions combined into one message deliver each result to its own variable.

Plan: Rank-indexed sums; coalesced buffer model.

### C19  Reduction variables: delayed and immediate accumulation

A Reduction<T> that is assigned a value and then accumulated in any number of site loops reads as assigned value + total of all contributions, in immediate mode and in delayed mode; in delayed mode this holds until the value is read: if accumulation continues after reading a delayed reduction without reassigning it, the earlier total is counted once per rank. Further histories that break it in the code as it stands: a reduction that was assigned and not yet accumulated reads as 0 on ranks other than 0; a `+=` outside site loops on a delayed reduction counts once per rank; switching delayed off before reading loses the pending combination.

Plan: State machine per rank for Reduction<T> (value, delay flags, comm state), all ranks combined by an arbitrary tree; refinement to an abstract accumulator whose misuse is a distinct outcome; refuted histories as witnesses.

### C20  ReductionVector sums and products

A ReductionVector summed in site loops holds at the end initial value + total, immediate or delayed. A delayed product reduction combines the rank contributions by multiplication. The latter fails for the code as it stands: the rank contributions of a delayed product are added; likewise assigning a value to a delayed vector with contributions still open multiplies the value by the number of ranks.

Plan: State machine per rank for ReductionVector, element-wise as C19; refuted histories as witnesses.

### C21  Field minimum and maximum with location

f.min(loc) / f.max(loc) return the extremal value over all sites (of the parity) and a site where it is attained, for every rank division. For max over floating-point fields this fails for the code as it stands: a field whose values are all negative gives the smallest positive number and no valid location. Also no location is reported when every value equals the largest (min) or smallest (max) number of the type.

Plan: Thread loops, critical sections, MINLOC and broadcast over Z (floating point values as multiples of the smallest positive number) with the limits of each type; witness.

### C22  Message tags never mismatch

With tags taken from the cycling counter, the k-th send from rank A to rank B is matched with the k-th receive that B posted for A's messages in that direction, for any number of outstanding and past messages, also after the counter wrapped around, on any number of lattices and mixed with point-to-point messages.

Plan: The MPI calls of each rank as a list of events; per envelope the sends of A and the receives of B are the same list; two ranks at different points of the program.

### C23  Memory pool never hands out memory in use

For every sequence of allocations and frees the pool returns a block that is at least as large as requested and is not currently in use by another live allocation; freeing makes exactly that block available again; a free block of suitable size is found again instead of allocating a new one; freeing an unknown pointer or freeing twice stops the program. Purging keeps all live blocks and gives back exactly the unused ones; in a build without GPU this fails for the code as it stands: a purge with an unused block stops the program.

Plan: Pool state with block list and hint; invariant over op lists.

### C24  Site selection collects every selected site up to the limit

After a loop with a site selection, rank 0 holds the selected sites of all ranks in rank order, cut at the requested maximum number, values aligned with sites, and the overflow count equals the number of selected sites that were dropped. This holds with values when a loop selects each site at most once; selecting a site again keeps the first value and can write past the vector, and lowering the maximum between the loop and a delayed join gives a result longer than the maximum, in the code as it stands.

Plan: Model of select/join; list equality theorem. Done: `SelectModel` (setup, select calls, endloop_action, the messages of join_data_vectors, host version only), `C24_sites`, `C24_sites_and_values`, `C24_first_value_stays`, `C24_select_twice_refuted`, `C24_lowered_maximum_refuted`.

### C25  Cluster labels identify the connected components

Cluster finding ends, and then two sites carry the same label exactly when they are connected through nearest-neighbour steps over sites of the same type; background sites carry the background label. The label of a cluster is the smallest site index in it combined with the type. (Reads of neighbours on other ranks are those of C05, taken at the start of the loop over a parity.)

Plan: Relaxation rounds on a finite graph; minimum over connected component; termination measure. Done: `ClusterModel` (labels as a function of the coordinates, arbitrary order of the sites of each parity in every round, each read either of the current value or of the value at the start of the loop), `C25_labels`, `C25_components`. Not modelled: the stale reads of C06 on lattices with odd sizes split over ranks.

### C26  Cluster list is complete for any number of ranks

The list of clusters contains every cluster exactly once, sorted by label, with its total number of sites, for any number of ranks (not only powers of two).

Plan: Run-length lists, merge and tree reduction; multiset-count theorem. Done: `C26_list` (any labels on any number of ranks), `C26_clusters` (labels of C25 in the memory of the ranks). Host version only.

### C27  Cluster label encoding

Type and site index are recovered from a cluster label for all types 0..254 and all site indices below 2^54; different (type, site) pairs give different labels and the background label is different from all of them and larger. Types above 255 are not diagnosed and lose their upper bits.

Plan: Z bit operations. Done: `C27_encoding`, `C27_type_out_of_range_refuted`.

### C28  Command line flags collect their arguments

For every command line, after parsing, each known flag holds the concatenation in order of the non-flag words that follow its occurrences; words that belong to no known flag and wrong argument counts are diagnosed. Missing arguments (none at all) of a flag that is the last word, also after flags that come before it in alphabetical order are taken out, are not diagnosed, and asking for the values of a flag that was never declared is silently accepted, in the code as it stands.

Plan: Parser function vs declarative specification. Done: `CmdlineModel` (index loops of read_arg_vector with the array of marked words; access outside the array and endless loops are outcomes), `C28_values`, `C28_accepted` (the exact set of accepted command lines), `C28_unknown_words`, `C28_wrong_number`, three `_refuted`. Flags are assumed to have the documented format. Not modelled: printing, get_int/get_double conversions.

### C29  Random shuffles are permutations

hila::shuffle returns a rearrangement of the input (no element lost or duplicated) for every outcome of the generator in [0,1), never indexing outside the array, and every permutation is reachable; shuffled directions and parities contain every (parity, direction) exactly once and agree on all ranks.

Plan: Swap-based shuffle; Permutation theorem; reachability. Done: `RandomModel` (random numbers are doubles in [0,1) as integer mantissa and exponent, the product with j + 1 is rounded to 53 bits to nearest-even before it is cut off; an index outside the array is an outcome), `C29_permutation`, `C29_reachable`, `C29_directions_and_parities`, `C29_directions`. The generator itself is not modelled.

### C30  Different ranks get different random seeds

For every user seed, the seeds derived for two different ranks differ (up to 2^31 ranks; with partitions up to 2^28 ranks in total). With seed 0 every partition reads its own clock, and two ranks of different partitions can get the same seed.

Plan: Z.lxor/shift with explicit mod 2^64. Done: `C30_single`, `C30_partitions`, `C30_clock_partitions_refuted`. That different seeds give different sequences is a property of the generator, not modelled.

### C31  FFT pencil redistribution loses nothing

Redistributing a field into full columns along a direction and back is the identity for every rank division in which every rank has sites, every column is complete and owned by exactly one rank of the row, and the buffer sections used by different ranks do not overlap. It fails if some rank has no sites (division by zero in the set-up) and if no direction is active (the result is read from memory that was never written).

Plan: Pencil offsets and column partition; inverse of gather/scatter. Done (`FftModel.v`, `FftSpec.v`, `FftProofs1-5.v`, `FftProps.v`): `C31_transform` is the refinement of the whole sequence collect, gather, column function, scatter, reshuffle, save on all ranks to a transform along one axis after another, with the column function (FFTW or the reflection) an arbitrary length-preserving parameter; `C31_identity`, `C31_columns`, `C31_sections`, `C31_no_direction_refuted`, `C31_empty_rank_refuted`. Buffers have a size and unwritten places, and reading one of those or going outside is failure (None). Messages are modelled as reads of the sender's buffer once every rank has filled it; the Waitall logic is not modelled. The arithmetic of FFTW is not modelled.

### C32  Field reflection

f.reflect(d) gives r(x) = f(L - x mod L) along d. Holds for even L; for odd L >= 3 the middle pair is left unswapped by the code as it stands.

Plan: Array reversal loop; witness for odd length. Done: `C32_reflect` (any set of directions), `C32_odd_refuted` (every odd L >= 3, every lattice).

### C33  Momentum-space symmetry of complex-to-real transform setup

The selection of independent Fourier modes is antisymmetric under k -> -k: exactly one of x and -x is marked as primary unless x = -x, so a field symmetrised with it satisfies F(-k) = conj F(k), for all even lattice sizes.

Plan: Recursive definition over dimensions. Done: `C33_modes`, `C33_symmetrised`, `C33_symmetric_unchanged`, `C33_reflected_field`, `C33_odd_sizes_refuted`. Complex values are pairs of integers (only sign changes are used).

### C34  Extended precision accumulation is exact up to the last compensation

Adding a double to an ExtendedPrecision variable preserves the sum value+compensation+compensation2 exactly up to the rounding of the last compensation; a sum of n doubles that are multiples of 2^u is exact, in every order, if 4 n^2 times the sum of magnitudes is at most 2^(159+u); variables that hold the same number compare equal. Multiplication by an integer k gives exactly k times the number, with the same room, if the odd part of k is at most a quarter (signed) or half (unsigned) of the range of its type; it fails otherwise: signed types overflow, with unsigned types the loop never ends. Subtracting an unsigned integer adds its wrapped negative.

Plan: Real-number model for the algebra of multiplication; Flocq for the error-free transformation. Done without either (`ExtendedModel.v`, `ExtendedSpec.v`, `ExtendedProofs1-3.v`, `ExtendedProps.v`): a finite double is an integer in units of 2^-1074, rounding to nearest even is a function on integers, and the exactness of the fast two-sum is proved there, so that no axioms about reals are needed. `C34_add`, `C34_sum`, `C34_sum_from_zero`, `C34_order`, `C34_add_variables`, `C34_equal`, `C34_multiply`, `C34_multiply_large_refuted`, `C34_multiply_smallest_refuted`, `C34_unsigned_minus_refuted`. Infinite results are a separate outcome; NaN, the sign of zero and the compiler's freedom to contract or reorder operations are not modelled (the code asks for compilation without them), neither are integer types narrower than int.

### C35  Vectorised storage keeps elements apart

In the vectorised storage layout, writing site i and reading it back gives the value written, and no other (site, component) changes; every address stays within the allocated array and belongs to exactly one (site, component). Reading or writing a whole vector is reading or writing its sites, also when vectors are sent to another node as blocks of memory, and filling the halo vectors from vectors of the same node changes the halo sites only, each getting the site the lane permutation names.

Plan: Index arithmetic. Done (`VectorModel.v`, `VectorSpec.v`, `VectorProofs1-2.v`, `VectorProps.v`): `C35_allocated`, `C35_places`, `C35_set_element`, `C35_get_vector`, `C35_set_vector`, `C35_gather`, `C35_place`, `C35_whole_vectors`, `C35_halo`, `C35_double_and_float`. The value held by a site is a list of E base type numbers (the code casts the type to that array); sizes are exact integers (the code checks that the allocation has fewer than 2^32 sites). Which vectors and permutations the neighbour tables use is not part of this property.

### C36  The source-rewriting buffer behaves like an edited text

For every sequence of insert, remove, replace, append, prepend, on/off and copy operations the text the buffer dumps is the text obtained by applying the edits to the original, and the text reported for a sub-range is the corresponding part; the original text queries are unaffected by edits; recycled insertion slots never leak text into other places; the sequence fails exactly when an edit lies outside the text. Exception: after a prepend, a dump ends with one blank that nobody inserted if the last character of the text has been removed and nothing put in its place.

Plan: Refinement of srcBuf state to a list of (inserted text, kept?) cells. Done (`SrcbufModel.v`, `SrcbufSpec.v`, `SrcbufProofs1-4.v`, `SrcbufProps.v`): `C36_edits`, `C36_dump`, `C36_original`, `C36_dump_refuted`. Edits are named by index; the translation of clang source locations to indices is not modelled, nor are comment_line, insert_above and similar operations, which only choose the index of an insertion. The Rewriter's text of a range is taken to be the original text. A copy of a buffer into itself is not modelled.

### C37  Word matching helpers of the preprocessor

find_word reports only occurrences that are whole words; contains_word_list accepts a line only if it starts with the listed words. Both fail in the code as it stands: a word followed by exactly one more character is accepted by the first, which also gives up at the first occurrence, and words run together or a longer final word are accepted by the second; apart from that each does exactly what it should. Removing white space keeps the words, commenting and indenting keep the lines, a cleaned name has only name characters, and removing X takes away X and the plus sign only (the plus sign stays if there is superfluous white space).

Plan: String functions, positive theorems for what holds, witnesses for what fails. Done (`WordsModel.v`, `WordsSpec.v`, `WordsProofs1-3.v`, `WordsProps.v`): `C37_characters`, `C37_find_word`, `C37_find_word_refuted`, `C37_find_first_refuted`, `C37_contains`, `C37_contains_words`, `C37_contains_refuted`, `C37_whitespace`, `C37_lines`, `C37_clean_name`, `C37_clean_name_refuted`, `C37_remove_X`, `C37_remove_X_refuted`. Texts are shorter than 2^31; std::string::find and rfind are modelled by their specification.

### C38  Compiler options are moved behind the separator without loss

The preprocessor's argument rearrangement moves exactly the -I/-D options (one- or two-word form) that stand before -- to behind it, keeping their order and the order of all other arguments; no argument is lost or duplicated. If there are several -- the last one counts.

Plan: In-place rotation loop vs filter specification. Done (`CmdargsModel.v`, `CmdargsSpec.v`, `CmdargsProofs1.v`, `CmdargsProps.v`): `C38_rearranged`, `C38_no_loss`, `C38_stops`. The compile option USE_COMPILER_INCLUDES (which inserts the include directories listed by a compiler) is treated in C55.

### C39  Multicanonical histogram binning

An order-parameter value strictly inside the range is counted in exactly the bin whose limits enclose it (lower < value <= upper), a value outside, or equal to the first or the last limit, is counted nowhere; the number of hits equals the number of in-range values seen.

Plan: lower_bound over sorted lists of Q. Done (`MucaModel.v`, `MucaSpec.v`, `MucaProofs1-2.v`, `MucaProps.v`): `C39_bin`, `C39_one_bin`, `C39_hits`. Doubles are rational numbers in all multicanonical models, without rounding, NaN and overflow; std::lower_bound is modelled as the bisection it is.

### C40  Multicanonical weight interpolation

The weight function passes through the bin-centre weights, is linear between adjacent centres (always between the two neighbouring weights), constant outside without hard walls and infinite at and outside the first and last centre with hard walls (so these two centres do not have the weight of their bin then), for every strictly increasing list of centres; the index used is always in range, and moves to places of infinite weight are rejected.

Plan: Interpolation over Q. Done (`MucaProps.v`): `C40_centre`, `C40_centre_refuted`, `C40_linear`, `C40_outside`, `C40_defined`, `C40_accept`.

### C41  Multicanonical weight file round trip

A weight file written by the program and read back gives the same bin limits and weights up to one part in a million (seven digits are printed, and values are read as floats although they are doubles, so limits that are closer come back equal) and the midpoints of the limits as centres, whatever free-form header lines are added in front as long as they do not contain the column keyword.

Plan: Text model with concrete printing and scanning of numbers. Done (`DecimalModel.v`, `DecimalProofs1-2.v`, `MucafileModel.v`, `MucafileSpec.v`, `MucafileProofs1.v`, `MucafileProps.v`): `C41_round_trip`, `C41_centres`, `C41_exact_refuted`, `C41_header_needed`. printf and scanf of `%e` are modelled from their specification (correctly rounded); overflow to infinity, NaN and file errors are not modelled.

### C42  Multicanonical iteration status is well defined

Each weight-iteration call returns a definite answer whether to continue, on all ranks. Holds for the direct methods with samples and with smoothing. Fails in the code as it stands: with sample size 1 the answer is an uninitialised value except on every check-interval-th call; and the canonical method divides by zero when the maximum number of iterations is below 100.

Plan: Option-valued result for indeterminate reads; witness and the positive range. Done (`MucaProps.v`): `C42_direct`, `C42_smooth`, `C42_histories`, `C42_direct_single`, `C42_direct_single_refuted`, `C42_canonical`, `C42_canonical_refuted`. The broadcast of the answer is not modelled; of the canonical method C42 has the counters only.

### C43  Checkpoint survives a crash at any point

With saving of the old configuration enabled, at every crash point during checkpointing at least one complete configuration (new or previous) exists on disk. The stronger claim that restarting resumes with a configuration belonging to the recorded trajectory number fails for crash points between writing the configuration and updating the status file, and for crash points during the configuration write the restart ends with an error although the previous configuration is complete, because it never looks at that file; after two crashes in a row it can even start from the beginning.

Plan: File-system operation list, crash = prefix, partial writes. Done (`CheckpointModel.v`, `CheckpointSpec.v`, `CheckpointProofs1.v`, `CheckpointProps.v`): `C43_newest_survives` (over whole histories of starts, checkpoints, crashes and kills), `C43_crash_point`, `C43_restart` (outcome of a restart for each crash point), `C43_restart_matches`, and the negative `C43_restart_refuted`, `C43_resume_refuted`, `C43_fresh_refuted`, `C43_no_save_refuted`. A crash is one of the program: files reach the disk in the order written.

### C44  Momentum binning information is consistent with the binning parameters

k(b) and count(b) return the average momentum and the number of lattice points of bin b for the current binning parameters as long as all parameters are set before the first question; sums of fields over bins always follow the current parameters, and the reported bin limits are those used. Fails as the code stands when parameters change later: the cached information is not recomputed and may be indexed out of range; and the reported bin width is wrong after the number of bins and then the largest momentum have been set.

Plan: State machine with cached vectors; witness. Done (`BinningModel.v`, `BinningSpec.v`, `BinningProofs1.v`, `BinningProps.v`): `C44_answers`, `C44_sums`, `C44_limits`, `C44_k_max`, and the negative `C44_stale_refuted`, `C44_range_refuted`, `C44_width_refuted`, `C44_conversion_refuted`. Exact arithmetic over Q; the momenta of the sites and the power function are arbitrary parameters.

### C45  Levi-Civita table

The table of the N-dimensional Levi-Civita symbol lists every permutation of 0..N-1 exactly once, together with its sign.

Plan: Mixed-radix counter and swap product; enumeration theorem for all N. Done (`LeviModel.v`, `LeviSpec.v`, `LeviProofs1.v`, `LeviProps.v`): `C45_table`, `C45_sign`, `C45_sign_identity`. N >= 1; the row count N! must fit an `int` (N <= 12), which the compiler enforces.

### C46  Integrators are reversible and advance the right time

Leapfrog and second-order (Omelyan) integrators at any nesting depth are time reversible: a step of size eps followed by a step of -eps restores fields and momenta exactly (exact arithmetic), and the innermost update advances by total time eps per step, for every number of substeps.

Plan: Abstract flows (Section variables become theorem hypotheses) and integrator trees; induction. Done (`IntegratorModel.v`, `IntegratorSpec.v`, `IntegratorProofs1.v`, `IntegratorProps.v`): `C46_reversible`, `C46_momentum_flip`, `C46_time`, `C46_forces`, `C46_time_refuted` (a level with zero substeps does not advance). The matrix exponential and the forces are parameters with the laws they satisfy in exact arithmetic; an example dynamics shows that the laws can be met.

### C47  Conjugate gradient residual is the true residual

At every iteration the recursively updated residual equals source minus operator applied to the current solution, so when the solver stops because the residual is small the returned field solves the equation to the requested accuracy (exact arithmetic). For an invertible operator and a positive target it always does so, within as many iterations as the field has components, unless the starting guess is exact. If the starting guess is already exact (in particular for a zero source) the code divides zero by zero.

Plan: Abstract module (vector space) operations as theorem hypotheses; loop invariant. Done (`CgModel.v`, `CgSpec.v`, `CgProofs1.v`, `CgProofs2.v`, `CgProps.v`): `C47_residual`, `C47_undefined` (exactly when division by zero occurs), `C47_converges` (at most as many iterations as components, by orthogonality of the residuals), `C47_exact_guess_refuted`, `C47_zero_source_refuted`. Numbers form any ordered field; fields are the lists of their real components on the sites of the operator's parity.

### C48  Staples complete plaquettes and the plaquette is gauge invariant

The trace of every plaquette and every closed straight line (Polyakov loop) is unchanged by an arbitrary gauge transformation; the staple sum transforms covariantly, and the trace of link times staple sum equals the sum of the traces of the plaquettes containing the link. As the code stands, the staple sum over one parity of a lattice with an odd size uses unassigned values, and the Polyakov loop of the hmc library averages single links and is not gauge invariant.

Plan: Links in an abstract ring with involution and trace; torus coordinates as lists. Done (`GaugeModel.v`, `GaugeSpec.v`, `GaugeProofs1.v`, `GaugeProofs2.v`, `GaugeMatrix.v`, `GaugeProps.v`): `C48_plaquette`, `C48_measure_plaq`, `C48_staplesum`, `C48_staples_covariant`, `C48_staples_trace`, `C48_hmc_staples`, `C48_polyakov`, `C48_hmc_polyakov`, `C48_odd_size_refuted`, `C48_hmc_polyakov_refuted`. They hold for every type of matrices with the laws `matrix_laws`; `C48_complex` shows the laws for complex n by n matrices (mathcomp, every numerically closed field). The weighted staple sum is not modelled.

### C49  Staggered Dirac operator and its conjugate

The operator applied by dagger() is the adjoint of the operator applied by apply() with respect to the lattice scalar product, for every gauge field, mass, and pair of vectors; likewise for the even-odd operator on the even sites of lattices with even sizes. As the code stands, the even-odd operator is not the Schur complement of the full operator: it has the wrong sign in front of the hopping terms and can be singular where the full operator is not.

Plan: Finite sums over the torus. Done (`DiracModel.v`, `DiracSpec.v`, `DiracProofs1.v`, `DiracMatrix.v`, `DiracProps.v`): `C49_adjoint`, `C49_apply`, `C49_evenodd_adjoint`, `C49_evenodd_apply`, `C49_evenodd_refuted`, `C49_eta_refuted`; `C49_complex` gives the laws of the scalar product for complex vectors. Antiperiodic boundaries are included; what earlier calls left in the static temporary fields is arbitrary. The force is not modelled.

### C50  Partitions split the ranks evenly

When the ranks are divided into P partitions (P dividing the number of ranks), every partition gets the same number of consecutive ranks, and renumbered ranks inside a partition are 0..n-1; other P are diagnosed. The product of rank and P is an int, which overflows for large numbers of partitions (65536 partitions of one rank), in the code as it stands.

Plan: Integer division lemma and renumbering. Done: `C50_partitions`, `C50_not_divisible`, `C50_many_partitions_refuted` (MPI_Comm_split is specified by its standard: equal keys keep the order).

### C51  Neighbour reads of the target after unblock_to

After unblock_to every rank that holds sites of the blocked lattice sees the new values of the target field when it reads a neighbouring site. Ranks that hold no site of the blocked lattice return early without invalidating their gathered halo, and read the old values of changed neighbour sites (refuted for these ranks).

Plan: flag per rank for the gathered halo around the rank-level model of unblock_to (C09), read through the gather of C04.

### C52  Surface area of a cluster

The area reported for a cluster is the number of lattice links with exactly one end in the cluster, each counted once, on periodic lattices of any size (on directions of size 2 two links join the same pair of sites).

Plan: sum exchange and shift permutation over the model of area (`C52_area`).

### C53  Clusters from links

Cluster finding from a link field puts sites joined by chains of non-zero links in one cluster and sites without links in the background. Two sites in one cluster need not be joined by links: neighbouring sites that both have links are joined even without a link between them, in the code as it stands.

Plan: type field built by find from the links, then C25 (`C53_links`, `C53_no_links_between_refuted`).

### C55  Compiler asked for its include directories

When the preprocessor asks a compiler for its include directories, it asks the newest g++ installed, and for the language standard given on the command line. Both fail in the code as it stands: the option loses the c of c++20, and the version number is read from the wrong characters.

Plan: Exact description of what is computed, witnesses for the failures. Done (`CmdargsModel.v`, `CmdargsProps.v`): `C55_standard`, `C55_standard_refuted`, `C55_version`, `C55_newest_refuted`. The pipe to the shell and the compiler is not modelled.

### C56  Direct multicanonical weight iteration

After each full sample of the direct method every weight has grown by C times the number of bins times the fraction of the sample that fell into its bin, up to one common shift that makes the least weight zero; the counters are cleared, and C is divided by 1.5 exactly when the finishing condition holds for the accumulated totals. With sample size 1 each value in range raises the weight of its own bin by C and no other; the smooth method spreads each value over five bins with weights 1, 3, 5, 3, 1.

Plan: Induction over the sample. Done (`MucaProps.v`): `C56_direct_sample`, `C56_single`, `C56_smooth`, `C56_finish`.

### C57  Canonical multicanonical weight iteration

The canonical update makes the new weight difference of two adjacent bins the data-weighted average of the old one and of the logarithm of the ratio of the densities (histogram divided by bin width) in the two bins, and leaves it alone if a bin has too few hits. Fails in the code as it stands for the last bin, whose histogram is not divided by its width.

Plan: Loop over bins against the rule. Done (`MucaProps.v`): `C57_canonical`, `C57_canonical_refuted`. The logarithm is any function; overcorrection is not modelled.

### C58  Hybrid Monte Carlo update

A rejected trajectory leaves the gauge field exactly as it was; an accepted one leaves the end of the trajectory that starts from the old field and the freshly drawn momenta. The trajectory is reversible (started at its end with reversed momenta it leads back) and advances by the requested length, for every integrator, number of steps and length.

Plan: Same model as C46. Done (`IntegratorProps.v`): `C58_rejected`, `C58_accepted`, `C58_reversible`, `C58_length`. Random numbers, the action and the acceptance probability are parameters.

### C59  Determinants of square matrices

The determinant of a square matrix, by Laplace expansion (sizes up to four), by LU decomposition (larger sizes), or by explicitly calling either, equals the mathematical determinant of the matrix: for singular matrices, matrices with zeros on the diagonal and rows of zeros too (exact arithmetic).

Plan: Model the loops on matrices as functions of row and column; compare with the determinant of the mathematical components library. Done (`LinalgModel.v`, `LinalgSpec.v`, `LinalgProofs1.v` to `LinalgProofs4.v`, `LinalgProps.v`): `C59_laplace`, `C59_lu`, `C59_det`. The numbers are those of any numeric field; the scale factors need only be positive.

### C60  LU decomposition, linear equations and inverse

For every invertible matrix the LU decomposition succeeds and gives a unit lower and an upper triangular factor whose product is the matrix with its rows permuted as reported; solving with it returns the unique solution of the linear equations for every right hand side, and inverting returns the two-sided inverse (exact arithmetic). As the code stands, a singular matrix can give a decomposition that is not one of the matrix, without any NaN or infinity.

Plan: As C59, with the invariant of the elimination after each column. Done (`LinalgProofs5.v`, `LinalgProofs6.v`, `LinalgProps.v`): `C60_factors`, `C60_solve`, `C60_invert`, `C60_singular_refuted`.

### C61  Site order of the vectorised layout

In the vectorised (AVX) layout every rank numbers its sites 0 .. volume-1 without gaps or repetitions, even sites first, and the coordinates table inverts the numbering. Cut into vectors of either element size, the numbering puts sites at the same place of their subnodes in one vector and each subnode in one lane, the same lane on every rank.

Plan: Mixed radix digits of subnode and place; parity. Done (`VlayoutModel.v`, `VlayoutSpec.v`, `VlayoutProofs1.v`, `VlayoutProofs2.v`, `VlayoutProps.v`): `C61_vector_index_bijection`, `C61_vector_coordinates_invert_index`, `C61_vectors_and_lanes`. The conditions on the division are `valid_vlattice`: what setup_layout_vector.cpp looks for.

### C62  Halo of a vectorised field

After any history of halo updates of a vectorised field, in any directions and parities, every rank still has the values of its own sites, and for every direction and parity that was updated, reading the neighbour vector of a site in that site's lane gives the field at the periodic neighbour: in the same subnode, in another lane, across the lattice edge or on another rank.

Plan: Gather tables with the vector index; positions of boundary sites in the halo; the message is in the order the receiver expects; regions of different directions and parities are disjoint. Done (`VlayoutProofs3.v` to `VlayoutProofs9.v`, `VlayoutProps.v`): `C62_vector_halo`. An update is one step for all ranks (asynchrony is C05/C06).

### C63  Antiperiodic boundaries of a vectorised field

With an antiperiodic boundary condition the halo update of a vectorised field delivers the neighbour's value, negated exactly when the step crosses the edge of the lattice, in every direction that is not divided between the lanes of a vector. As the code stands it is wrong in divided directions: lanes whose neighbour is inside the lattice are negated too.

Plan: As C62, and a witness. Done (`VlayoutProofs10.v`, `VlayoutProps.v`): `C63_antiperiodic_without_permutation`, `C63_antiperiodic_refuted`.

### C64  Division of the lattice among ranks and vector lanes

If the automatic layout for the vectorised build accepts a division, the division is usable: boxes tile the lattice, there are exactly the requested numbers of ranks and lanes, every rank has sites and divides evenly into lanes, divided directions have an even extent per lane and a second direction is even, so that the site order and halo of C61-C63 work. The routine ends in one attempt if ranks times lanes divides the volume. As the code stands it does not end for some other sizes (16^3 x 48 on 5 ranks of 8 lanes: the second attempt succeeds and is repeated forever), and the exit marked 'CANNOT HAPPEN' is taken for others (8^4 on 3 ranks of 8 lanes).

Plan: Invariants of slicing and of the lane loop; the ghosted size exceeds the lattice by less than the number of divisions; the loop state repeats. Done (`VsetupModel.v`, `VsetupProofs1.v` to `VsetupProofs3.v`, `VsetupProps.v`): `C64_accepted_layout_is_valid`, `C64_accepted_layout_indexes_all_sites`, `C64_lane_division_ends`, `C64_done_after_two_turns_or_never`, `C64_ends_if_virtual_nodes_divide_volume`, `C64_terminates_refuted`, `C64_impossible_exit_refuted`.

### C65  Matrix and vector arithmetic

Products of matrices and vectors, sums, products with numbers, transposes, conjugate transposes, traces, scalar and outer products, products with a 2 by 2 block and permutations of rows and columns are those of linear algebra, and no uninitialised element enters. (ab)^dagger = b^dagger a^dagger. mult, mult_aa, mult_add and mult_sub give the product whatever the result held before, M *= M squares M, and a product with a number may be written to the matrix itself. As the code stands, mult(a, b, a), mult(a, b, b) and mult_add(a, b, a) do not give the product, and M += M.e(0,0) and mult(M, M.e(0,0), M) change the number while it is still being used.

Plan: A double loop that treats each element once; sums kept in one element; equality with matrices of the mathematical components library. Done (`MatrixModel.v`, `MatrixSpec.v`, `MatrixProofs1.v`, `MatrixProps.v`): `C65_product`, `C65_product_to`, `C65_numbers`, `C65_assign_product`, `C65_dagger`, `C65_trace`, `C65_block`, `C65_permute` and five `_refuted` theorems on results that are also arguments.

### C66  Powers and exponentials of matrices

pow(m, p) is the p-th power for 0 <= p < 2^32 and always ends; exp(m, order) is the exponential series up to the given order; mult_exp gives M exp(A) and in its second result the derivative of tr(M exp(A)) with respect to A; altexp gives the series up to the order in niter, where niter = 1 reports the largest order, 15 n - 1. As the code stands the exponent is reduced modulo 2^32 (a larger one, or a negative one, gives another power without an error), and altexp stops when the squared norm happens to be unchanged: of minus two times the unit matrix it returns the unit matrix.

Plan: Binary powers by induction on the number of bits; Horner's scheme by induction on the steps; (A + tH)^k to first order in t; the steps for exp(-2) stay in an interval. Done (`MatrixModel.v`, `MatrixSpec.v`, `MatrixProofs2.v`, `MatrixProps.v`): `C66_pow`, `C66_pow_in_range`, `C66_pow_large_refuted`, `C66_exp`, `C66_altexp`, `C66_altexp_close_refuted`, `C66_mult_exp`.

### C67  The exponential by the Cayley-Hamilton theorem

For n >= 2, chexp halves the matrix until its norm is below the limit, say m times, and gives the exponential series of A / 2^m up to some power K with n <= K < 25 n, raised to the power 2^m; this holds whatever the square root, the norm and the comparison of rounded numbers give, so that rounding in the rescaling and in the test for convergence can affect K only. The halving goes on exactly as long as the norm is not below the limit. Without halving the returned number is K (or 25 n for K = 25 n - 1). As the code stands the returned number is n whenever the matrix was halved, and for n = 1 an element outside of the temporary array is written.

Plan: Newton's identities give the characteristic polynomial, the Cayley-Hamilton theorem (proved via the adjugate of x - A) reduces powers; invariants of the iteration: al evaluates to the series, pal times the weights to the next power. Done (`ChexpModel.v`, `ChexpProofs1.v`, `ChexpProofs2.v`, `ChexpProofs3.v`, `ChexpProps.v`): `C67_exponential`, `C67_halving`, `C67_iterations_refuted`, `C67_one_by_one_outside`.

### C68  Sorting of vectors

V.sort(permutation, order) returns the elements of V in the order given by permutation, and permutation contains each index exactly once, whatever the comparison of elements gives (also if some of them are not numbers). If the comparison is a strict weak order, the result is ascending or descending as asked for, and elements which compare equal keep their order in V, which determines the permutation completely. With the order unsorted nothing is moved. V itself is not changed.

Plan: Insertion sort as loops over a permutation. Done (`SortModel.v`, `SortSpec.v`, `SortProofs.v`, `SortProps.v`): `C68_permutation`, `C68_sorted`, `C68_unique`.

### C69  Eigenvalues of hermitean matrices

For n >= 2 and a hermitean matrix A, eigen_hermitean(E, U, order) returns a unitary matrix U and real numbers E in the order asked for, which are the diagonal elements of D = U^dagger A U. The sum of the squared elements of D off the diagonal has been reduced at least by the factor 1 - 2/(n(n-1)) with each rotation; if fewer than 100 n^2 rotations were made, each of them is at most eps sqrt(|E_k E_l|) for some k, l. The same sum is the squared norm of A U - U E. As the code stands, there is no defined result for 1 by 1 matrices.

Plan: Exact arithmetic over any field with norm, complex conjugate and square root. Each rotation is a unitary similarity that makes the largest element zero; the trace of D^dagger D does not change, which gives the decrease. Done (`EigenModel.v`, `EigenSpec.v`, `EigenProofs1.v` to `EigenProofs4.v`, `EigenProps.v`): `C69_eigenvalues`, `C69_residual`, `C69_one_by_one_refuted`. Rounding is not modelled.

### C70  Singular value decomposition with pivoting

For n >= 2 and every matrix A, svd_pivot(U, S, V, order) returns a unitary V and numbers S >= 0 in the order asked for, which are the norms of the columns of A V; the columns of U are those of A V divided by S. The sum of the squared products of different columns has been reduced at least by the factor 1 - 2/(n(n-1)) with each rotation; if fewer than 100 n^2 rotations were made, each of these products is at most eps S_k S_l for some k, l. For an invertible A, S > 0, A = U S V^dagger and the columns of U are normalised. As the code stands, U is the quotient of zero and zero for A = 0, and there is no defined result for 1 by 1 matrices.

Plan: The Gram matrix that the code keeps and updates is shown to be that of A V, so that each rotation is one of C69. Exact arithmetic. Done (`EigenProofs5.v`, `EigenProofs6.v`, `SvdProps.v`): `C70_columns`, `C70_decomposition`, `C70_singular_refuted` (for A = 0), `C70_one_by_one_refuted`. Rounding is not modelled.

### C71  Singular value decomposition by sweeps

For every matrix A, svd(U, S, V, order) returns a unitary V and numbers S >= 0 in the order asked for, which are the norms of the columns of A V; for an invertible A, S > 0, A = U S V^dagger and the columns of U are normalised. This is so whatever non-negative number the variable holds that the code reads without having initialised it. If that variable keeps its value from the turn before, and fewer than 100 n^2 pairs of columns were looked at, the products of different columns of U are at most eps. As the code stands this last fact does not follow: with another value there, the loop may stop with columns that are not orthogonal.

Plan: The content of the uninitialised variable is an arbitrary function of the value in the turn before; negative contents and NaN are left out, and reading it is undefined behaviour in C++, of which this is one outcome. Invariant of the sweeps: V unitary and M = A V; the last sweep has checked all pairs without changing anything. Done (`EigenProofs7.v`, `SvdProps.v`): `C71_columns`, `C71_converged`, `C71_decomposition`, `C71_uninitialised_refuted`. Rounding is not modelled; no rate of convergence is proved for the sweeps.

## Seeded errors: what the log shows

Each line of `seeded/LOG.jsonl` is an edit of the model in a scratch copy, after which everything was built again. `theorems_failed` lists the theorems whose own proof, or a proof they rest on, no longer went through. This is weaker than a proof that the theorem is false of the edited model: a proof script can also stop working after an edit that changes nothing that can be observed. Two edits are known to be of that kind, M192 and M439 (a control made on purpose); their lines list the broken scripts apart and count no theorem as failed. For the other edits the claim they break was chosen by reading the code; where an `Example` is among the failures, a computed result did change.

### C72  Reunitarisation and random SU(N) matrices

make_unitary() of an invertible matrix gives a unitary matrix, each row of which is a positive multiple of the same row of the matrix plus multiples of the rows above; this determines the result, and a unitary matrix is not changed. fix_det() multiplies a unitary matrix with a phase so that its determinant is 1. reunitarize() therefore gives a matrix of SU(N) for every invertible matrix, and does not change a matrix of SU(N). random(nhits) gives a matrix of SU(N) for every N, every number of hits and every sequence of random numbers in which no four numbers drawn together are all zero.

Plan: Model of the row operations of make_unitary; each is multiplication with a lower triangular matrix with a positive diagonal. Invariant: the rows done so far are orthonormal. Random: a product of matrices of SU(2) embedded in the unit matrix, then reunitarize. Simplifications: exact arithmetic; the phase with which fix_det multiplies, cos and sin of arg(det)/N, is an argument known only by its properties (modulus 1, its N-th power times the determinant is the modulus of the determinant, it is 1 for a positive determinant). A singular matrix makes the code divide by zero and is excluded by the hypothesis. Done (`SuModel.v`, `SuSpec.v`, `SuProofs1.v`, `SuProofs2.v`, `SuProps.v`): `C72_make_unitary`, `C72_unique`, `C72_unitary_unchanged`, `C72_fix_det`, `C72_reunitarize`, `C72_random`. Rounding, and the distribution of the random matrices, are not modelled.

### C73  Lie algebra of SU(N)

generator_list gives N*N-1 antihermitean traceless matrices l_k with tr(l_k^+ l_m) = 1/2 for k = m and 0 otherwise, in the order and with the elements that the comments state, and never writes behind the end of the arrays. expand() of a vector of real components is their sum times the l_k; expand_scaled(s) is s times that. project_to_algebra() gives the components 2 Re tr(l_k^+ A) of any matrix, the version with a scale factor these times the factor, and the version with a second result also the sum of their absolute values. expand() followed by project_to_algebra() gives the same components; project_to_algebra() followed by expand() gives the antihermitean traceless part of the matrix. dot() of two vectors is tr(a^+ b) of their matrices. right_conjugation and left_conjugation with a unitary U give U^+ E U and U E U^+, undo each other and keep dot().

Plan: Model of the loops over the diagonal and over the pairs i < j, which are folds over the list of the pairs; closed forms of every component. The square roots of the three functions are all sqrt(2 i (i+1)) up to a factor 2. The generators are then the expanded unit vectors, from which the rest is linear algebra. Simplifications: exact arithmetic; real and complex numbers are elements of one field with conjugation, square roots of the non-negative numbers and an imaginary unit. Done (`AlgebraModel.v`, `AlgebraSpec.v`, `AlgebraProofs1.v` to `AlgebraProofs5.v`, `AlgebraProps.v`): `C73_generators`, `C73_expand`, `C73_project`, `C73_norm`, `C73_inverse`, `C73_dot`, `C73_conjugation`. Not modelled: exp, chexp and log of the algebra, random momenta.

### C74  Products of SU(N) generators and bilinear forms

generator_product_list, given freshly constructed arrays, holds the products of all pairs of generators and never writes behind the end of an array of N elements. project_to_algebra_bilinear gives 2 Re tr(l_i^+ w1 l_j w2) for two matrices, 2 Re tr(l_i^+ w l_j) with the list of products, and 2 Re sum_kl tr(l_i^+ w[k][l]) (l_j)_kl for an array of matrices. Two things do not hold: an array of products that has been filled cannot be given to generator_product_list again, though it is declared as output only, since elements are then written behind its end for every N >= 2; and the form with an array of matrices is not the one of the comment in the code, which has (l_j)_lk.

Plan: Sums over the elements of sparse matrices are traces of matrix products. No row of a generator has two elements, so no row of a product has; hence at most N elements. A store behind the end of an array is a distinct outcome of the model. Done (`AlgebraModel.v`, `BilinearModel.v`, `BilinearProofs1.v`, `BilinearProps.v`): `C74_products`, `C74_bilinear`, `C74_array`, `C74_reuse_refuted`, `C74_array_comment_refuted`. Exact arithmetic.

### C75  SU(2) kept as four numbers

convert_to_2x2_matrix turns the arithmetic of SU2 (sums, differences, products, products and sums with numbers, negation, dagger) into that of 2 x 2 matrices; trace(), det() and mul_trace() are those of the matrices, and the matrix is in SU(2) just if det() is 1. squarenorm() is half of the sum of the squared absolute values of the elements. normalize(), reunitarize() and random() give an element of SU(2), the same matrix divided by a positive number, if det() is not 0. Every element of SU(2) is met, by exactly one SU2. Re tr(u A) for an element u of the subgroup of rows i and j is tr(u v) plus a constant, v from project_from_matrix(A, i, j). For the algebra: expand() is (i/2)(a s1 + b s2 + c s3), project_to_algebra() is its inverse and gives the antihermitean traceless part of any SU2; dot() is 2 tr(E^+ E'); conjugations are U^+ E U and U E U^+, undo each other and keep dot(). Algebra<SU<2>> gives the same matrices, the components in reverse order, but its dot() is half as large.

Plan: The identities of the components are polynomial identities with I * I = -1, proved with ring and field for any field and used for the numbers of the mathematical components library. Simplifications: exact arithmetic; real and complex numbers are elements of one field. Done (`Su2Model.v`, `Su2Spec.v`, `Su2Proofs1.v` to `Su2Proofs3.v`, `Su2Props.v`): `C75_operators`, `C75_numbers`, `C75_normalize`, `C75_all`, `C75_subgroup`, `C75_algebra`, `C75_conjugation`, `C75_sun`.

### C76  Exponential and logarithm of SU(2)

exp() of an algebra element (a, b, c) is the limit of the exponential series of the matrix (i/2)(a s1 + b s2 + c s3), for every length of the vector including 0, and is in SU(2). Exponentials along one direction multiply: exp((s+t)E) = exp(sE) exp(tE), and exp(-E) is the adjoint of exp(E). exp(log(U)) = U for every U in SU(2) except -1, and log(exp(E)) = E for |E| < 2 pi. Two things do not hold: log(-1) is 0, so that exp(log(-1)) is 1; and exp() of an SU2 that is no multiple of the unit matrix multiplies components that have never been assigned, so that its result depends on what the memory held.

Plan: The model of C75 with Coq's real numbers, where sin, cos and exp are limits of their series. The powers of the matrix alternate between multiples of 1 and of the matrix, so that the partial sums are partial sums of the series of cos r and sin(r)/r. The memory of the result is an argument of the model of SU2::exp. Simplification: exact real numbers. Done (`Su2Model.v`, `Su2expSpec.v`, `Su2expProofs1.v`, `Su2expProps.v`): `C76_exp`, `C76_steps`, `C76_log`, `C76_log_refuted`, `C76_su2_exp_refuted`.

### C77  Overrelaxation by SU(2) subgroups

suN_overrelax(U, staple) leaves the link U in SU(N) and does not change Re Tr(U staple^+), for every N, every link of SU(N) and every staple matrix. For SU(2) a second call with the same staple restores the link, and for a staple that is a non-zero sum of SU(2) matrices the new link is S U^+ S / det S. It does not hold that the update is always defined: for SU(3) there are a link and a staple in SU(3) whose action has a zero projection on a subgroup, and normalizing it divides zero by zero.

Plan: The double loop over subgroups as a fold with the outcome None for a zero projection. An element of a subgroup has the determinant of its 2 by 2 block (Sylvester's identity), so each hit is in SU(N); the hit V satisfies V a = a^+ for the projection a, and the overlap of V with the action depends on V a only (C75). Simplification: exact arithmetic. Done (`OverrelaxModel.v`, `OverrelaxProofs1.v` to `OverrelaxProofs5.v`, `OverrelaxProps.v`): `C77_overrelax`, `C77_twice`, `C77_su2`, `C77_defined_refuted`.

### C78  Maximising the overlap with a staple

suN_max_staple_sum_rot(staple) returns an element U of SU(N) with Re Tr(U staple) not below Re Tr(staple), for every order of the indices the shuffle may produce. For SU(2) it is the element of SU(2) with the largest Re Tr(U staple). suN_overrelax(U, staple, beta) proposes T U^+ T, where T depends on the staple and the shuffle only, which is in SU(N) and for which the same T leads back to U; it is accepted always for SU(2), and otherwise if Re Tr(U staple^+) grows or the random number is below exp(beta/N ds); if not, U stays as it was and 0 is returned. For SU(2) Re Tr(U staple^+) does not change, and the link agrees with that of suN_overrelax(U, staple). It does not hold for SU(3) that the matrix returned has the largest overlap, as the description says: for a multiple (1 + 4i) of the unit matrix it returns the unit matrix, although a cube root of unity times the unit matrix has a larger overlap.

Plan: The iteration with its test for leaving it, the tolerance being an argument. Invariant of the sweeps: the rotated staple is U times the staple, U is in SU(N), and the overlap has not decreased; by the Cauchy-Schwarz inequality for quaternions a hit is the best in its subgroup. The permutation and the random number are arguments. Simplification: exact arithmetic. Done (same files): `C78_max`, `C78_max_su2`, `C78_max_refuted`, `C78_update`, `C78_update_su2`, `C78_same_su2`.

### C79  Heat bath by SU(2) subgroups

suN_heatbath(U, staple, beta) leaves the link U in SU(N) for every N, every staple, every beta > 0 and every sequence of random numbers in [0, 1), unless the Kennedy-Pendleton loop of a subgroup ends after forty rejected trials. The value returned is between 1/40 and 1, and if it is above h/(h+39), with h = N(N-1)/2 subgroups, the link is in SU(N). For SU(2) and a staple that is a non-zero sum of SU(2) matrices the new link and the value returned do not depend on the old link, and the link is in SU(2) whatever the random numbers if beta^2 det(staple) <= 4; it is h S / sqrt(det S), where the first component of h is that of the first trial the methods of Kennedy and Pendleton or Creutz accept for beta sqrt(det S), the others lie on a sphere, and one over the number of trials is returned. It does not hold that the link always stays in SU(N): after forty rejected trials the last one is used, whose first component may be below -1, and the link is then not unitary. It does not hold that the update is always defined: for SU(3) a zero projection is divided by its length, and for SU(1) the value returned is 0/0.

Plan: The random numbers are a sequence given as an argument, read in the order of the code; log, exp, sin and cos are arguments of which only monotonicity, log(exp y) = y for y <= 0 and cos^2 + sin^2 = 1 are used. A trial accepted has 0 <= d <= 2, and the element chosen has determinant (1-d)^2 + |1 - (1-d)^2|, which is 1 just then; the Creutz loop gives a first component in [-1, 1] even if it is exhausted. Invariant of the sweep: the counts, and membership in SU(N) unless a loop failed. Not stated: the probability distribution of the result. Simplification: exact arithmetic. Done (`HeatbathModel.v`, `HeatbathSpec.v`, `HeatbathProofs1.v` to `HeatbathProofs4.v`, `HeatbathProps.v`): `C79_link`, `C79_rate`, `C79_su2`, `C79_sampling`, `C79_link_refuted`, `C79_defined_refuted`.

### C80  Reading parameter files

What a program gets from a parameter file depends only on the lines that are left when comments, indentation and blank lines are removed, and every sequence of calls comes to an end, or stops because quotes are not closed. A program that asks for the parameters in the order of the file gets their values: single values, vectors and lists, also lists that go on on the next line. A key that is not the next one in the file fails and has no effect on the following calls. Integers are read exactly, or refused if out of range. A file read to the end can be followed by another one on the same object. It does not hold that only integers are accepted for an integer (3.7 gives 3), that complex numbers can be written as documented ("(0.4, 0.5)" always fails, "( 0.4, 0.5 )" is read), that quoted strings may contain '#' (the program stops), or that an object can be opened again in general (the rest of the last line is read first).

Plan: The reader of rank 0 as a function of the rest of the file, the line buffer and the position; exceptions, exit and loops that do not end are distinct outcomes. Two readers are related if the same significant text is left; every call preserves this. The meaning of a file is an inductive relation between its lines and the answers. The reading of numbers other than integers is an arbitrary function of the text. Broadcasts and messages are not modelled. Done (`InputModel.v`, `InputSpec.v`, `InputProofs1.v` to `InputProofs7.v`, `InputProps.v`): `C80_layout`, `C80_ends`, `C80_file`, `C80_integer`, `C80_complex`, `C80_quoted`, `C80_reopen`, `C80_integer_refuted`, `C80_complex_refuted`, `C80_quoted_refuted`, `C80_reopen_refuted`.

### C81  Parameters given on the command line

With -p key value on the command line the first call for this key gets the given value instead of the one in the file, a second -p for the same key serves the second call, all other parameters have the values of the file, and closing the file complains exactly if a value was given that was not used. Only the first file of a program is affected. It does not hold that a list going on on the next line can be replaced (the rest of the old list is taken for the next parameter), or that unused values are complained about when no key of the file was found.

Plan: The used entries of the argument list are marked as in the code; invariant: the entries not marked are the parameters not used. The line of a replaced parameter must be in the file. Keys of -p that are empty, a comma or contain '#' are excluded (the empty key and the comma are used inside the reader, and a marked entry is recognised by its text). Done (`InputModel.v`, `InputSpec.v`, `InputProofs1.v` to `InputProofs7.v`, `InputProps.v`): `C81_run`, `C81_first_file`, `C81_continuation_refuted`, `C81_unread_refuted`.

### C82  Choices in parameter files

get_item returns the first of the items that fits the text after the key and fails exactly if none fits; the words of an item are consumed, while the text for which %s, %f or %i stands is left for the next call. It does not hold that %i fits integers only: it is chosen for 1.343 if it comes before %f.

Plan: Induction over the items; what is left for the following calls is stated as another file for which they have the same answers. Done (`InputModel.v`, `InputSpec.v`, `InputProofs1.v` to `InputProofs7.v`, `InputProps.v`): `C82_choice`, `C82_integer_refuted`.

### C83  Time limit of a run

A time limit given as d-h:m:s, h:m:s, m:s or s is understood as that number of seconds, and a text that does not begin with a number is refused; a number that is negative or at least 2^32 leaves the limit undefined. time_to_finish() returns true exactly if the signal was received, or if a limit is set and less than the longest interval between two checks plus two minutes are left; so if it returns false and the next check comes within the longest interval so far, at least two minutes are left then. Once it returns true it stays true. Without a limit and a signal it returns false. It does not hold that other texts are refused (2-12 and 2-12:30 are taken for two seconds, 10m for ten), or that a run ends only if a round might not fit in: the time before the first check counts as an interval, so that a program whose first check is after half of the limit ends at once.

Plan: sscanf with %u is modelled as a scanner of digits for which numbers out of range are undefined; the static variables of time_to_finish are a state that is folded over the calls. Times are rational numbers, the rounding of the clock is not modelled. The text obtained from the slurm command is an input. Done (`TimelimitModel.v`, `TimelimitSpec.v`, `TimelimitProofs1.v`, `TimelimitProps.v`): `C83_format`, `C83_invalid`, `C83_range`, `C83_check`, `C83_margin`, `C83_stays`, `C83_no_limit`, `C83_format_refuted`, `C83_start_refuted`.

### C84  Arrays of a rank's own sites, boxes and slices

copy_local_data() fills an array with the values of the sites of the rank, the first coordinate running fastest, every element from exactly one site; set_local_data() is its inverse, touches nothing else and refuses an array that is too short. After copy_local_data_with_halo() every element of the larger array, faces, edges and corners of the surrounding layer included, is the value of the periodic lattice at the corresponding coordinates if the rank has at least two layers of sites in every direction. This fails if the rank has a single layer in some direction: the elements of the layer above it, and only these, keep whatever the array contained. get_subvolume() and get_slice() return the values of all sites of the range or slice in the same order, and refuse a range that is not in the lattice.

Plan: Fields are functions of rank and local index, site loops are folds over the local indices of the layout model, values at neighbours are those of their owner (C05, C06). Invariant of the nested loops: after the call for directions d1 < ... < dk the helper field has, at the sites of that corner, the values of the sites beyond it; each element of the halo is written by exactly the call for the set of directions in which it lies outside. Done (`LocalModel.v`, `LocalSpec.v`, `LocalProofs1.v` to `LocalProofs5.v`, `LocalProps.v`): `C84_copy`, `C84_set`, `C84_round_trip`, `C84_halo`, `C84_halo_exact`, `C84_halo_refuted`, `C84_subvolume`, `C84_slice`.

### C85  Plaquette action and its force

The plaquette action is the sum over all sites and pairs of directions of 1 - Re Tr(plaquette)/N. The change of the momenta made by its force routine is the gradient of this action: when the links move with velocity E U, the scalar product of E with the change is -2 N eps times the derivative of the action, for the adding and the setting version, whatever the momenta and the temporary fields contained. The energy of the molecular dynamics, measured with the momenta and the action, is constant to first order along the motion that the link and momentum updates generate.

Plan: The gauge field is a function of direction and site, loops over sites are pointwise definitions, the sums are those of the lattice. Derivatives are taken in any numerically closed field by a first order estimate with an explicit bound, so no analysis is needed. Dual numbers: the action of links moving with E is computed with pairs (value, velocity), the velocity of a trace of a product is a sum over its links, and a shift of the lattice collects the terms of one link into its staple. Done (`ForceModel.v`, `ForceSpec.v`, `ForceProofs1.v` to `ForceProofs7.v`, `ForceProofs10.v`, `ForceProps.v`): `C85_action`, `C85_force`, `C85_energy`.

### C86  Lines of links along any path and the force of any loop

The line of links along a path of at least two steps, read at the end point of the path, is the product of the links met along the path in order, taken conjugated where the path runs backwards. This fails for a path of one step: the routine reads the path beyond its end. The force routine of a closed path of at least two steps changes the momenta by 2 eps times the gradient of the sum over all starting points of Re Tr of the loop, also where the path visits a link several times; given a field that already contains line times a remainder, it does so for the part of it that moves with the line.

Plan: Induction over the path: after k steps the field contains, at the k-th point, the loop started there, by unitarity of the link that is moved from the front to the back. Done (`ForceModel.v`, `ForceSpec.v`, `ForceProofs1.v` to `ForceProofs6.v`, `ForceProps.v`): `C86_line`, `C86_line_refuted`, `C86_force`, `C86_given_line`.

### C87  Improved action and its force

The improved action is c11 times the sum over plaquettes plus c12 times the sum over all 2 x 1 and 1 x 2 rectangles of 1 - Re Tr(loop)/N. The change of the momenta by its force routine is the gradient of this action in the sense of C85, including c12 = 0, and the energy of the molecular dynamics is constant to first order.

Plan: The six-step path with the given field is an instance of C86, the rectangles met by it are those of the action up to their starting point, direction and orientation. Done (`ForceModel.v`, `ForceSpec.v`, `ForceProofs8.v`, `ForceProofs10.v`, `ForceProps.v`): `C87_action`, `C87_force`, `C87_energy`.

### C88  Clover action and its force

The clover action is the sum over sites and planes of the squared field strength, the field strength being the traceless antihermitian part of the mean of the four plaquettes that touch the site in the plane. The change of the momenta by its force routine is the gradient of this action in the sense of C85.

Plan: The force of each leaf is that of a closed four-step path with an inserted matrix (C86 with a given field). Done (`ForceModel.v`, `ForceSpec.v`, `ForceProofs9.v`, `ForceProofs10.v`, `ForceProps.v`): `C88_action`, `C88_force`.

### C89  Blocking a gauge field

After block_gauge() every link of the blocked lattice is the product of the links of the parent lattice along its direction, as many as the blocking factor of that direction, from the parent site of its starting point; block_gauge_to_current_lattice() replaces the field by the same links, and changes nothing on the same lattice. Blocking factors above two are refused. Hence the product of blocked links along any path is the product of the parent links along the path with every step repeated, loops are loops of the parent, and a gauge transformation of the parent is one of the blocked field.

Plan: The loops are those of block_from with the value link times neighbouring link, so the proofs of C09 and C04 give each direction; induction over the directions and over the path. Done (`LonglinkModel.v`, `LonglinkSpec.v`, `LonglinkProofs1.v`, `LonglinkProofs2.v`, `LonglinkProps.v`): `C89_block_gauge`, `C89_in_place`, `C89_large_factor`, `C89_paths`, `C89_covariant`.

### C90  Making the electric field satisfy Gauss' law

In up to three dimensions each step of degauss() leaves the total violation of Gauss' law (the sum over sites of the squares of the components of the covariant divergence of E, which does not depend on the gauge) no larger than before, keeps every component of E that is orthogonal to the corrections (the scalar product with any field without divergence), and does not change a field that satisfies Gauss' law. degauss() ends after at most 10001 steps, and if it did not reach this limit the violation per site is at most 9/4 of the wanted quality. It is not always within the quality: the value that is tested belongs to the field before the last correction, and the comment that the real violation is smaller is wrong. In four dimensions a step can increase the violation.

Plan: The violation is transformed by (1 - T)(1 - 2T) with T = a D D^+ for the covariant divergence D; T is symmetric with 0 <= T <= 5/4 (by the norm of D^+), and the polynomial is bounded by 1 there; induction over the loop. Fields of alternating sign are eigenvectors for the upper end and give the witnesses. Done (`GaussModel.v`, `GaussSpec.v`, `GaussProofs1.v` to `GaussProofs7.v`, `GaussProps.v`): `C90_violation`, `C90_covariant`, `C90_step`, `C90_degauss`, `C90_quality_refuted`, `C90_four_refuted`.

### C91  The time evolution keeps Gauss' law

In at least two dimensions update_E() and update_U() of the real-time evolution do not change the covariant divergence of the electric field at any site, and the links stay unitary. So along do_trajectory(), for every time step and number of steps, every measured violation of Gauss' law is equal to that of the initial fields, and after degauss() it is at most 9/4 of the wanted quality per site. In one dimension update_E() reads a field that was never assigned.

Plan: Sum over pairs of directions: the plaquettes at a site cancel in pairs, because exchanging the directions conjugates the product or exchanges the terms; exp(E) commutes with E; induction over steps and turns. The staples are those of C48. Done (`GaussModel.v`, `GaussSpec.v`, `GaussProofs6.v`, `GaussProofs7.v`, `GaussProps.v`): `C91_update_U`, `C91_update_E`, `C91_trajectory`, `C91_after_degauss`, `C91_one_dimension`.

### C92  The gradient flow lowers the action

For the Wilson, Luescher-Weisz, Iwasaki and DBW2 flows in at least two dimensions: when the links move with get_gf_force() as momenta, measure_gf_s() changes at the rate -|F|^2 / 2N, where |F|^2 is the sum of the squares of the components of the force; so it decreases strictly unless the force is zero everywhere. For the Zeuthen flow it decreases at least at 2/3 of the rate of the Luescher-Weisz flow. The components of every force are real numbers. The forces of the first four flows follow gauge transformations. That of the Zeuthen flow does not: whenever the Luescher-Weisz force of some link is not zero there is a gauge transformation in SU(N) after which the Zeuthen force is not the transformed one.

Plan: The forces are the gradients of the actions (C85, C87) and a gradient of an invariant function is covariant, because the scalar product with the transformed momenta determines it. The Zeuthen force is F + (1/12)(U F U^+ - 2 F + the transported F of the previous site): |U F U^+| = |F|, so its scalar product with F is at least 2/3 |F|^2 by Cauchy-Schwarz; it uses F of the wrong site in the first term, and a diagonal matrix of SU(N) or a product with it that does not commute with F shows it. Done (`FlowModel.v`, `FlowSpec.v`, `FlowProofs1.v` to `FlowProofs6.v`, `FlowProofs9.v`, `FlowProps.v`): `C92_decrease`, `C92_zeuthen_decrease`, `C92_stationary`, `C92_covariant`, `C92_zeuthen_covariant_refuted`.

### C93  Energy, its change and topological charge along the flow

measure_dE_wplaq_dt() is the derivative, along the flow with the chosen action, of the lattice volume times the printed plaquette energy density, and measure_dE_clov_dt() that of 2N times the clover action. In four dimensions measure_topo_charge_and_energy_clover() gives the topological charge, (1/32 pi^2) times the sum over sites and over all i, j, k, l of epsilon(i,j,k,l) Re Tr F_ij F_kl, and the energy, the sum of |F_ij|^2 over sites and pairs of directions, for the clover field strength F; the energy is 2N times the clover action. Both do not depend on the gauge, nor on the previous contents of the work fields. In another number of dimensions both values are 0 for every field.

Plan: The measured derivatives are scalar products of two forces (C85, C88). The transported sum of projected plaquettes is the projected sum of the four leaves; the six components with their signs are the 24 permutations by antisymmetry. Done (`FlowModel.v`, `FlowSpec.v`, `FlowProofs6.v`, `FlowProofs7.v`, `FlowProofs8.v`, `FlowProps.v`): `C93_plaquette`, `C93_clover`, `C93_clover_derivative`, `C93_invariant`, `C93_dimensions`.

### C94  The adaptive integration of the gradient flow reaches its end time in accurate steps, in every gauge alike

When do_gradient_flow_adapt(V, l_start, l_end, atol, rtol, tstep) returns, V has been taken from flow time l_start^2/8 exactly to l_end^2/8 by at least two steps of the three-stage Runge-Kutta method of arXiv:1006.4518, each positive, not longer than half of the way, and such that on every link the method and the embedded two-stage one agree within the wanted accuracy; after each step the links are reunitarized. The returned step size is positive and not longer than half of the way. If l_end^2 <= l_start^2 the field and the step size are unchanged. Links in SU(N) stay in SU(N). If the starting field is replaced by a gauge transform of it, the function takes the same steps, returns the same step size, and its result is the gauge transform of the first result (all flow actions but Zeuthen). On commuting links the steps agree with the solution of the flow equation up to the third power of the step size, and the embedded method up to the second.

Plan: The loop with fuel; its result is related by induction to a list of accepted steps. The exponential function is any function that gives special unitary matrices and follows a change of basis; reunitarize() is any function that leaves SU(N) alone (C72). The relative error and the first step size are maxima of lengths, and lengths do not change under a change of basis. The order is proved by Taylor expansion of a polynomial force over polynomials in the step size. That the loop ends is not claimed: with exact numbers it need not. Done (`FlowstepModel.v`, `FlowstepSpec.v`, `FlowstepProofs1.v` to `FlowstepProofs5.v`, `FlowstepProps.v`): `C94_steps`, `C94_covariant`, `C94_force`, `C94_order`.

### C95  Stout smearing multiplies every link by the exponential of its plaquettes, in every gauge alike

stout_smear(U, stout, coeff, iter) with iter >= 0 leaves in stout the field U smeared iter times, where one smearing replaces every link U_d(x) by exp(-coeff P) U_d(x) with P the antihermitean traceless part of the sum of all plaquettes that begin with this link; earlier contents of stout and of scratch fields do not matter, and every step uses only the links of the field before it. For negative iter it copies U if iter is even and smears once if iter is odd. The form with lists fills stoutlist[i] with the field smeared i times and staplist[i] with the sums of staples of stoutlist[i]; it needs at least one field in stoutlist and at least stoutlist.size() - 1 in staplist. get_stout_staples puts each of the 2(NDIM-1) staples of every link in its own place, the upper ones first and the lower ones in reverse order, and their sum equals that of staplesums. Links in SU(N) stay in SU(N), and smearing a gauge transformed field gives the gauge transform of the smeared field. The derivative of the plaquette action with respect to coeff at 0 is minus the sum over links of the squared length of P, over N.

Plan: The loops over directions as folds on links; the sums of staples are those of the plaquette force (C85). Smearing is a relation between fields, and covariance and SU(N) are proved of the relation. The exponential function is any function that gives special unitary matrices and follows a change of basis; for the action also that it is 1 + t a + O(t^2). The staples: every place is written once, with a value that is known. The derivative of the action is the work of the force (C85). Done (`StoutModel.v`, `StoutSpec.v`, `StoutProofs0.v` to `StoutProofs4.v`, `StoutProps.v`): `C95_smear`, `C95_list`, `C95_covariant`, `C95_action`, `C95_staples`.

### C96  The force under stout smearing is the gradient with respect to the links before smearing

stout_smear_force(stoutlist, staplist, K, KS, coeff), given the lists that stout_smear filled from a gauge field U with m smearing steps and a force K that is c times the gradient of some function S of the gauge field at the smeared field stoutlist[m], returns in KS c times the gradient at U of S as a function of the field before smearing: however the links move away from U, the scalar product of their velocity with KS is c times the rate of change of S of the smeared field. The previous contents of KS do not matter. In particular the force of the plaquette action at the smeared field is turned into the force of the plaquette action of the smeared field. With fewer than stoutlist.size() - 1 fields of staples there is an access out of range.

Plan: mult_chexp is not modelled: an argument gives the matrix with the traces of Q^+ K dQ/dX, and the specification says that this is what it has, of any exponential function with a derivative. One step: the rate of the plaquettes of moving links is computed, paired with the matrices of the code term by term, and sums over sites are shifted; the smeared links then move with a velocity in the algebra whose product with K is that of the velocity of the links with KS. All steps: induction on the loop. The hypotheses are shown for the Cayley transform in SU(2), whose derivative is computed. Done (`StoutforceModel.v`, `StoutforceSpec.v`, `StoutforceProofs1.v` to `StoutforceProofs6.v`, `StoutforceProps.v`): `C96_force`, `C96_plaquette`, `C96_range`.

### C97  With stout smearing HMC conserves the energy of the smeared action to first order

stout_smeark(U, stoutlist, staplist, stoutklist, coeff) stores in stoutlist[i] the field U smeared i times, and stout_smeark_force, given these lists and a force K that is c times the gradient of a function S at the last field, returns c times the gradient at U of S as a function of the field before smearing, for U in SU(N). In HMC with STOUTSTEPS > 0, update_E changes the momenta by the force of the action of the smeared field that measure_s measures: if the links move with the velocity of the momenta and the momenta with the velocity given by update_E, the total energy is constant to first order, for the Wilson plaquette action and for the improved actions. The contents of newly made fields do not matter.

Plan: chexpk and mult_chexpk_fast are not modelled: arguments give what chexpk keeps and what mult_chexpk_fast makes of it, and the hypothesis is that the two together give the traces with the derivatives of the exponential. Since links in SU(N) stay in SU(N), U0 U^+ in the code is the exponential, and each step gives the fields of C96; the second half of a step is the same code. The energy follows with C85 and C87 at the smeared field. The hypotheses are shown for the Cayley transform in SU(2). Done (`StoutkModel.v`, `StoutkProofs1.v`, `StoutkProofs2.v`, `StoutkProps.v`): `C97_smear`, `C97_force`, `C97_energy`, `C97_energy_impr`.

### C98  The running site index names every lattice site once

SiteIndex(cv) of a valid lattice coordinate is x + nx (y + ny (z + nz t)), a number less than the number of sites, and its coordinates() returns cv; every number v less than the number of sites is the index of exactly one site, the one that SiteIndex(v).coordinates() returns. This needs a number of sites that a size_t holds; the sizes of the directions are ints.

Plan: Arithmetic of size_t modulo 2^64 and the conversions between int and size_t are modelled. The loop of the constructor computes the running index modulo 2^64 (induction on the directions), which is the number itself below the volume; division and remainder give back the digits (induction). Done (`SiteindexModel.v`, `SiteindexSpec.v`, `SiteindexProofs1.v`, `SiteindexProps.v`): `C98_site`, `C98_index`, `C98_injective`, `C98_volume_needed`.

### C99  Complex numbers compute as complex numbers, also when an argument is the number that is assigned to

In exact arithmetic +, -, *, / of Complex numbers and of a Complex and a real number, the conjugate, conj_mul, mul_conj, squarenorm, abs, == and the product with an imaginary number give the values of the complex numbers re + i im; a division has a result if and only if the divisor is not zero. The same holds for +=, -=, *= and /=, also for an argument that is the number itself or one of its parts, with one exception: z /= z.real() (or z.re) leaves the imaginary part undivided, so that it is wrong unless the imaginary part is 0 or the real part is 1.

Plan: Arguments by reference are read when the code reads them; a division by zero is the outcome None. The identities of the parts are proved with `ring` from i * i = -1 and used for the complex numbers of mathcomp (any numClosedFieldType); the divisor is nonzero if and only if the code's max or squarenorm is. Done (`CmplxModel.v`, `CmplxSpec.v`, `CmplxProofs1.v`, `CmplxProofs2.v`, `CmplxProps.v`): `C99_operators`, `C99_conjugate`, `C99_division`, `C99_assign`, `C99_assign_real`, `C99_div_real_refuted`, `C99_compare`.

### C54  Template parameters are replaced as names only

When the preprocessor specialises a function it replaces in its text the names of template parameters by their arguments: every identifier that is one of the names becomes the text beside the first such name in the list, and all other text, in the range and outside it, is unchanged: longer identifiers, comments, preprocessor lines, strings and character constants; the return value is the number of replacements. This holds for text whose numbers contain no letters and whose comments do not begin with a slash; in 2.0f the letter f is replaced like a name, and a comment that begins with a slash is taken as closed.

Plan: The scanner is modelled for a range of the buffer, with the places where it looks past the end of the range; the specification is a grammar of lexical items. Each item is consumed by the rounds of the loop as a whole (induction on the item), then induction on the program; the specified text is unique. Done (`TokensModel.v`, `TokensSpec.v`, `TokensProofs1.v`, `TokensProps.v`): `C54_replace`, `C54_replace_all`, `C54_unique`, `C54_number_refuted`, `C54_comment_refuted`.

## Findings (places where the code violates the expected property)

Each is confirmed by a proved `_refuted` theorem about the model.

* C05 `start_gather(d,ALL); start_gather(d,EVEN)`, a write to the EVEN sites,
  then `wait_gather(d,EVEN)` stops the program (`exit(1)`) although the data
  requested is still well defined.
* C06 on a lattice with an odd periodic size, a neighbour read across the
  boundary after writing one parity returns stale data without any gather.
* C11 the automatic layout can accept boxes one site thick (e.g. 3x3 on 2 ranks).
* C12 the automatic layout never returns e.g. for 3x9x9x9 on 4 ranks: the first
  attempt (with ghost columns) fails, the second succeeds, and the loop condition
  only looks at the first.
* C10 `block` reuses any earlier lattice of the same size whatever its parent,
  so `unblock` can end in a lattice of another size; a factor of 1 in every
  direction finds the lattice itself, and `unblock` then stops the program.
* C51 `unblock_to` returns early on ranks without blocked sites and does not
  invalidate the halo of the target there: stale neighbour reads.
* C15 if one element is larger than WRITE_BUFFER_SIZE, `write` never ends
  (sites_per_write is 0).  By reading: `read_fields` calls a member function
  `read_from_stream` that does not exist, so it cannot be instantiated; the
  model uses `read` in its place.
* C16 if a stored size does not divide the lattice size, the sites beyond the
  last whole copy are not written; if it is larger than the lattice, elements
  are sent to coordinates outside of the lattice.
* C17 a shift of one parity on a lattice with an odd size reads sites of the work
  field that were never written.

* C19 a delayed Reduction that is read and accumulated further, `+=` outside loops,
  or switched to immediate before reading, gives wrong totals on more than one
  rank; a reduction that is only assigned reads 0 on ranks other than 0.
  By reading: `+=` outside loops does not wait for a running non-blocking
  reduction, and Field::product() calls members that are commented out, so it
  cannot be instantiated (neither is modelled).
* C20 the delayed product of a ReductionVector is combined by addition, and an
  assignment while delayed contributions are open is counted once per rank; its
  operator= does not wait for a running non-blocking reduction (by reading).
* C21 Field::max of an all-negative floating point field returns the smallest
  positive number, and the location is not set.  By reading: min and max of
  infinities have the same problem with the largest finite number.
* C23 memory_pool::purge calls `free(it->ptr)`, which is the member function (not
  the C library's), on a block that is already free: without CUDA or HIP it stops
  the program.
* C24 (`site_select.h` 294-297): `select_site_value` stores the value before `select_site` has found that the site is the one selected last. A second selection of the same site in a loop leaves the first value in place, and writes one element past the end of `values` when the rank has selected all of its sites.
* C24 (`site_select.h` 143): `nmax - sites.size()` wraps around when `max_size` is lowered between a loop with `no_join()` and `join()`; the result then has more elements than the maximum.
* C53 (`clusters.h` 295-305): `find(VectorField)` reduces the links to a type field (1 on every site with a link) and then joins all neighbouring sites of type 1. The documentation says sites X and X + d are connected if link[d][X] is non-zero; the code also connects neighbours whose common link is zero.
* C27 (`clusters.h` 126): types outside 0..255 of wider integer fields are shifted without a check and alias smaller types.
* C28 (`cmdline.cpp` 151-153): a flag that is the last word leaves the loop before the check of the number of arguments. As flags are taken out of the command line one after the other in alphabetical order, `-o -i in` is accepted with the argument of `-o` missing while `-o -z in` is diagnosed.
* C28 (`cmdline.cpp` 77-81): `argmap[flag]` inserts the flag before `count(flag) == 0` is tested, the test never succeeds.
* C50 (`initialize.cpp` 452): `myrank * partitions.number()` is an int product; it overflows when ranks times partitions exceed 2^31.
* C30 (`random.cpp` 98-109): with seed 0 and partitions, each partition takes its own time (CLOCK_MONOTONIC, counted from the start of each host); nothing keeps the seeds of two partitions apart.
`FFT` with no active direction (full_transform with a direction mask of zero): the loop over directions never runs, `dir` keeps its initial value and the result is copied from a receive buffer nothing was written to (`C31_no_direction_refuted`).
A lattice division that leaves a rank without sites (allowed by the layout with more divisions than sites in a direction) makes the FFT set-up divide by the rank's size in that direction, which is zero (`C31_empty_rank_refuted`).
`Field::reflect` leaves the two middle layers in place for every odd lattice size >= 3: the swap loop stops one pair early (`C32_odd_refuted`).
`ExtendedPrecision * k`: the test `2 * mult < rhs` is evaluated in the type of k. For an int with odd part above 2^30 this is signed overflow; for an unsigned int with odd part above 2^31 `2 * mult` wraps to 0, `mult` becomes 0 and the loop never ends (`C34_multiply_large_refuted`). `ExtendedPrecision * INT_MIN` negates INT_MIN (`C34_multiply_smallest_refuted`).
`ExtendedPrecision - 1u` is computed as `+ (-1u)`, i.e. 4294967295 is added (`C34_unsigned_minus_refuted`); the same for `-=`.
- `srcBuf::dump` asks `get_mapped` for `full_length` characters, which counts the prepended text although `get_mapped` does not produce it. When the end of the text has been removed the loop then leaves one blank too many at the end (`C36_dump_refuted`; harmless in C++ source).
- `srcBuf::comment_line` on the first line of a buffer (no newline before the place) inserts `//` after the first character instead of before it (not used by hilapp at present).
- `find_word` (hilapp) does not check the character behind the word if it is the last character of the text (`C37_find_word_refuted`): `#pragma hila safe_access(x1)` also silences the check for a field `x`. It looks at the first occurrence only (`C37_find_first_refuted`): `safe_access(ab, b)` has no effect on `b`.
- `contains_word_list` (hilapp) accepts `#pragmahila` and `#pragma hila skipper` (`C37_contains_refuted`).
- `remove_X` (hilapp) looks for the plus sign in the text before white space was removed (`C37_remove_X_refuted`; the result `+ dir` means the same).
- `handle_cmdline_args` (hilapp): `cpp_standard = cppstd + 6` cuts off the `c` of `c++20`, so with `-std=...` the compiler is called with `--std=++20` and returns no include directories (`C55_standard_refuted`).
- `get_includes_from_gcc` (hilapp) adds the digit after moving on: `g++-14` counts as version 2, `g++-20` and `g++-9` as -38 (`C55_newest_refuted`).
- `iterate_weight_function_direct_single` returns an uninitialised value on all calls but every check-interval-th (`C42_direct_single_refuted`).
- `iterate_weight_function_canonical` computes `% (max_iters / 100)`: division by zero for max_iters below 100 (`C42_canonical_refuted`). It does not divide the histogram of the last bin by the bin width (`C57_canonical_refuted`), and does not overcorrect the last weight.
- `Muca::weight_function` with hard walls is infinite already at the centres of the first and last bin, so half of each end bin can never be entered (`C40_centre_refuted`).
- `get_equidistant_bin_limits` divides by the number of bins less one: one bin gives NaN limits (not a theorem).
- `Muca::read_weight_function` reads doubles with `%e` into floats, and `write_weight_function` prints seven digits: limits closer than that come back equal (`C41_exact_refuted`). A file without the column keyword (or with CR LF line ends) makes it construct vectors of length -2, an exception (`C41_header_needed`).
- `checkpoint`/`restore_checkpoint`: a crash between the configuration and the status file makes the restart go on from the new configuration with the old trajectory number (`C43_restart_refuted`); a crash while the configuration or the status file is written makes every restart end with an error although a complete configuration exists (`C43_resume_refuted`), since `.prev` is never read; with no status file yet, a crash just after the renaming makes the restart begin from scratch (`C43_fresh_refuted`). When partitions are used, a missing `run_status` is looked for one directory up (input.cpp 61-66), so a run can take up the status of another one.
- `k_binning::k` and `count` compute the bin information only when there is none: after any later change of parameters they return stale values (`C44_stale_refuted`) or read beyond the vector (`C44_range_refuted`); `bin_k_field` recomputes it only if the number of bins differs. `k_max` after `bins` leaves `binwidth()` unchanged (`C44_width_refuted`). `sd_get_k_bin` converts a double to int that may not fit when k exceeds k_max and the power is high (`C44_conversion_refuted`). The average k of an empty bin is 0/0.
- `action_sum operator+(action_base, action_base)` (integrator.h 75-78) takes its arguments by value: the terms are cut down to the base class, whose force is zero, and the sum keeps references to the destroyed copies. Sums must be built with the constructor, which is what C46 models.
- `represented_gauge_field::restore_backup` restores the fundamental field but not the represented one, which stays that of the rejected trajectory until `refresh` is called.
- `CG::apply` computes `rr / pDp` before testing the residual: with an exact starting guess, in particular with a zero source and a zero guess, it divides zero by zero and fills the solution with NaN (`C47_exact_guess_refuted`, `C47_zero_source_refuted`). The same happens later if the target is zero and the residual vanishes exactly (`C47_undefined`). With `maxiters` 0 it reports residue 0.
- `polyakov_loop` in `libraries/hmc/gauge_field.h` computes `polyakov[X] = polyakov[X] * gauge[dir][X - dir]` plane by plane, so the product never moves along the line: the result is the average of the traces of the single links ending at coordinate 0, which is not gauge invariant (`C48_hmc_polyakov`, `C48_hmc_polyakov_refuted`). `measure_polyakov` of `libraries/gauge/polyakov.h` is right.
- `staplesum` with parity EVEN or ODD on a lattice with an odd size reads `lower` at sites where it was not assigned (`C48_odd_size_refuted`).
- `dirac_staggered_evenodd` computes m + D_eo D_oe / m. The Schur complement of the operator m + D is m - D_eo D_oe / m (the Wilson version flips the sign of kappa in the second hop, the staggered one does not), and the operator is singular for masses at which the full operator is not (`C49_evenodd_refuted`).
- `init_staggered_eta` stores `(sumcoord % 2) * 2 - 1`, which is -1 for an even sum of coordinates; its comment says +1 (`C49_eta_refuted`). All phases have the opposite sign, so apply() is what the comments call the conjugate.
- `LU_decompose` starts each column with `imax = 0`. If the column has no nonzero element on or below the diagonal, it exchanges the row with row 0, which is already finished: for the singular matrix ((1,0),(0,0)) the factors multiply to zero and no NaN or infinity tells so (`C60_singular_refuted`). Solving with the result does divide by zero.
- Vectorised layout: `set_local_boundary_elements` with an antiperiodic direction negates all lanes of every boundary vector. If the direction is divided between lanes, only the lanes of the subnodes at the lattice edge should be negated; the others get the wrong sign (`C63_antiperiodic_refuted`: 8 x 4 lattice).
- Vectorised layout setup: `while (secondtime)` repeats a successful second attempt forever (`C64_terminates_refuted`: 16 x 16 x 16 x 48 on 5 ranks of 8 lanes), as in the generic setup (C12).
- Vectorised layout setup: the exit marked 'CANNOT HAPPEN' does happen whenever the ghosted direction cannot take the prime that made the ghost sites necessary without going below 4 sites (`C64_impossible_exit_refuted`: 8^4 on 3 ranks of 8 lanes), and no second direction is tried.
- `mult(a, b, res)` and `mult_add(a, b, res)` read their factors while they write the result: `mult(a, b, a)` and `mult(a, b, b)` are wrong without an error (`C65_product_to_first_factor_refuted`, `C65_product_to_second_factor_refuted`, `C65_add_product_to_factor_refuted`); nothing in the documentation excludes such calls.
- `Matrix_t::operator+=(const S &)` and `mult(M, number, M)` take the number by reference: `M += M.e(0,0)` doubles the number after the first element (`C65_add_own_element_refuted`, `C65_product_with_own_element_refuted`); `operator-=` and `operator*=` take it by value and are right.
- `pow(m, p)` assigns the exponent to a uint32_t: exponents from 2^32 and negative exponents are reduced modulo 2^32 without an error (`C66_pow_large_refuted`).
- `altexp` takes an unchanged squared norm for convergence: `altexp` of minus two times the unit matrix is the unit matrix (`C66_altexp_close_refuted`; exact in floating point as well, since only 1, -1 and 2 occur). Its niter is 1 if the loop ends without having stopped (`C66_altexp`).
- `chexp` for 1 by 1 matrices writes `pl[1]`, which is outside of `pl[n]` (`C67_one_by_one_outside`); the comment says that pl has n + 1 matrices.
- `chexp` returns j, which is the number of iterations only if the matrix was not halved: the squaring uses j again and leaves n (`C67_iterations_refuted`).
- The documentation of `sort` says "`V.sort(); // V is sorted in ascending order`", but the method is const and returns a sorted copy; V stays as it was (C68).
- `eigen_hermitean` and `svd_pivot` of 1 by 1 matrices use the indices p and q, which `find_largest_offdiag` has not assigned (`C69_one_by_one_refuted`).
- `svd` and `svd_pivot` divide each column by its norm also if the norm is zero, so that for A = 0 every element of U is 0/0, although the documentation says that U is unitary (`C70_singular_refuted`; the normalisation of `svd` is the same code).
- `svd`: `double Bpp;` in the loop over q (matrix_linalg.h 503) hides the variable of line 488 and is read uninitialised in every turn that follows one without rotation. If it does not happen to keep its value, the loop can stop although columns are not orthogonal (`C71_uninitialised_refuted`).
- `sun_matrix.h` 432-458: `generator_product_list` appends to the arrays it is given and does not call `empty()`; `generator_list` does. A second call with the same arrays writes behind their end (`C74_reuse_refuted`).
- `sun_matrix.h` 703-725: the comment of `project_to_algebra_bilinear(w, ...)` says `\lambda_j[l][k]` where the code uses `\lambda_j[k][l]` (`C74_array_comment_refuted`).
- `su2.h` 84-86, 593-596: `SU2::squarenorm()` is half of what `squarenorm()` of the same matrix as `SU<2>` is, whereas `Algebra<SU2>::dot` is twice `Algebra<SU<2>>::dot` (`C75_numbers`, `C75_sun`). Code written for both types must know which one it has.
- `su2.h` 113-123: `SU2::operator=` for initializer lists has no return statement (undefined behaviour in C++ when its end is reached); not modelled.
- `su2.h` 235-253: `SU2::exp` computes `ret.a *= sr` on components that were never assigned, instead of `ret.a = sr * a` (`C76_su2_exp_refuted`).
- `su2.h` 257-272: `SU2::log` returns 0 for -1, whose exponential is 1 (`C76_log_refuted`).
- `sun_overrelax.h` 33-35 and `sun_max_staple_sum_rot.h` 58: the projection on a subgroup may be zero, and is divided by its length (`C77_defined_refuted`).
- `sun_max_staple_sum_rot.h` 13: "Find SU(N) matrix U that maximizes ReTr(U*staple)" does not hold for N = 3; the iteration stops at a point where no single subgroup gives more (`C78_max_refuted`).
- `sun_heatbath.h` 114-126: if forty trials are rejected the last d is used although it may exceed 2; `fabs` at line 170 hides this, and the link is multiplied by a matrix that is not unitary (`C79_link_refuted`).
- `sun_heatbath.h` 66-68: a zero projection is divided by its length (`C79_defined_refuted`).
- `input.h` 349-351: the tokens are delimited by blanks and commas only, so a complex number in the documented format `(0.4, 0.5)` is never accepted (`C80_complex_refuted`); after a failure the value is built from uninitialised variables.
- `input.h` 496-504: what follows the digits of an integer is ignored (`C80_integer_refuted`, `C82_integer_refuted`).
- `input.cpp` 140-142: a `#` between quotes starts a comment (`C80_quoted_refuted`).
- `input.cpp` 27-92: open does not reset the line buffer (`C80_reopen_refuted`).
- `input.cpp` 322-333: an override does not skip the lines on which the replaced list goes on (`C81_continuation_refuted`); 94-114: unused overrides are not noticed if no key was found (`C81_unread_refuted`).
- `timing.cpp` 240-243: texts with a day field but without all three others are read as seconds (`C83_format_refuted`); 344-345: the first interval counts from the start of the program (`C83_start_refuted`).
- `field_comm.h` 1174-1186: with a single layer of sites in a direction the upper layer of `copy_local_data_with_halo` is not filled (`C84_halo_refuted`). 1116: `T *data = buffer.data()` of a constant vector does not compile once `set_local_data` is used on a CPU (read from the text, not part of the model).
- `wilson_line_and_force.h`: `get_wilson_line` reads a path of one step beyond its end (`C86_line_refuted`); `get_wloop_force` and `get_wloop_force_from_wl` call `get_wloop_froce_add`, which does not exist, and do not compile once used (read from the text, not part of the model).
- `degauss.h`: the comment "the real violation should be smaller than this" is wrong; the loop can end with 9/4 of the tested violation, hence above the wanted quality (`C90_quality_refuted`), and in four dimensions the step sizes make violations grow (`C90_four_refuted`).
- `gradient_flow.h`: `get_zeuthen_flow_force` conjugates `F_LW[d][X]` with `U[d][X]` where the covariant derivative needs `F_LW[d][X + d]`; the Zeuthen force is not gauge covariant (`C92_zeuthen_covariant_refuted`).
- `gradient_flow.h`: `static_assert((0 < GFLOWACTION) ...)` rejects the Wilson flow, which has the number 0, when the action is chosen at compile time (seen in the text, not a theorem).
- `z /= z.real()` (cmplx.h, 506-521; C99_div_real_refuted): the real number is passed by reference, and `real()` of a variable is a reference to its part; `re /= lhs` sets the part, and with it `lhs`, to 1, and the imaginary part is not divided. `*=` takes its real argument by value and is right.
- The constructor `Complex()` is `= default` and leaves the parts unset, although its description (cmplx.h, 76-87) says that they are set to 0. (Read from the code, no theorem.)
- The product of two U1 numbers (u1.h, 121-124) uses `+=`, which U1 does not define: the product cannot be compiled where it is used. (Read from the code, no theorem.)
- Replacing template parameters (srcbuf.cpp, 633-646; C54_number_refuted): the letters after the digits of a number are taken for a name; with a template parameter named `f` (or `L`, `u`, `e5`, `x1`), `2.0f` becomes `2.0` followed by the argument.
- Replacing template parameters (srcbuf.cpp, 653-657; C54_comment_refuted): the search for the end of a comment begins at its second character, so that a comment that begins with a slash is taken to end there, and the names in it are replaced; a quote in it then hides the code that follows up to the next quote.

## Axioms used

`Print Assumptions` reports "Closed under the global context" for every theorem
listed in MANIFEST.json except those of C76. These are about Coq's real numbers
and rest on four axioms of the standard library:
`ClassicalDedekindReals.sig_forall_dec`, `ClassicalDedekindReals.sig_not_dec`,
`FunctionalExtensionality.functional_extensionality_dep` and (`C76_log`,
`C76_log_refuted`) `Classical_Prop.classic`.

The checker (`coqchk`) also lists constants that are defined in a module with
an opaque signature: seven of `Coq.ssr.ssrunder` (standard library) and, since
the mathematical components library is loaded, 31 of its own (`BigOp.bigop`,
`BigOp.bigopE`, `FinfunDef.*`, `SetDef.*`, `Imset.*`, `PermDef.*`, `SubsetDef.*`,
`CardDef.*`, `EnumDef.*`, `FinTuple.*`, and `Pi`, `MPi`, `Repr` of
`generic_quotient`). They are not axioms: each has a definition or proof in the
library, hidden behind its signature, and `Print Assumptions` does not list
them.
