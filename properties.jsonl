{"id": "C01", "title": "Site ordering inside a rank is a bijection with even sites first", "statement": "On every rank the map from the coordinates of the rank's sub-box to local storage indices is a bijection onto [0, number of local sites); every EVEN site is stored at an index below every ODD site, so that onsites(EVEN) and onsites(ODD) run over exactly the sites of that parity, each once, and onsites(ALL) over each local site exactly once. The inverse (index -> coordinates) returns the coordinates the index was made from.", "quantifier": "every number of dimensions, every box size (odd sizes included), every box corner, every site, every parity", "why_tests_cant": "A test uses one lattice size and one rank count; box sizes with odd volume, odd corners or size-1 directions are never exhausted.", "anchors": ["libraries/plumbing/lattice.cpp: lattice_struct::site_index, setup_nodes, node_struct::setup, advance_local_coordinate", "libraries/plumbing/lattice.h: loop_begin, loop_end, coordinates"]}
{"id": "C02", "title": "Every lattice site is owned by exactly one rank", "statement": "For every lattice size and every division of the lattice into ranks (including uneven divisions where rank boxes differ in size) the boxes of the ranks tile the lattice: every site is inside exactly one rank's box, and the rank that the owner lookup returns for the site is the rank whose box contains it.", "quantifier": "every dimension count, lattice size, number of divisions per direction (1 <= divisions <= size), every site", "why_tests_cant": "Uneven divisions only appear for node counts that do not divide the lattice; a test suite runs a handful of node counts.", "anchors": ["libraries/plumbing/lattice.cpp: node_rank, setup_node_divisors, is_on_mynode, nodeinfo, setup_nodes"]}
{"id": "C03", "title": "Block-wise rank remapping is a permutation with the right inverse", "statement": "With the blocked node layout the mapping from logical node position to MPI rank is a permutation of [0, number of ranks), and the inverse mapping undoes it in both directions, for every node grid.", "quantifier": "every node grid (any number of dimensions, any division per direction), every block factor selection the code makes, every rank", "why_tests_cant": "Only particular grids are ever run; an aliasing of two logical nodes to one rank appears only for grids with particular divisors.", "anchors": ["libraries/plumbing/map_node_layout.cpp: create_remap, remap, inverse_remap"]}
{"id": "C04", "title": "Neighbour access after a gather returns the periodic neighbour", "statement": "After gathering a field in direction d, reading f[X+d] at any site X of any rank returns the value the field holds at the periodic neighbour of X in direction d, whichever rank owns that neighbour, and the messages that were exchanged are pairwise consistent: what rank A packs for rank B is in the order in which B stores it, with equal lengths.", "quantifier": "every dimension, lattice size, division into ranks, direction (both orientations), site and field content", "why_tests_cant": "Correctness of pack order against unpack order has to hold for every pair of neighbouring ranks of every uneven division; a test checks one process grid.", "anchors": ["libraries/plumbing/lattice.cpp: create_std_gathers", "libraries/plumbing/field_comm.h: start_communication, wait_gather, gather_comm_elements", "libraries/plumbing/backend_cpu/field_storage_backend.h"]}
{"id": "C05", "title": "A field read never sees stale neighbour data, whatever the history", "statement": "On lattices whose sizes are even in every direction that is split between ranks, for every history of site-loop writes on any parity, explicit start_gather/wait_gather/gather calls and neighbour reads, a site loop on parity P that reads f[X+d] obtains the current value of the field at the neighbour - the lazily reused halo is never stale. Every message that was sent is received exactly once and no rank waits for a message that is never sent.", "quantifier": "every history (any length) of writes on EVEN/ODD/ALL, gather starts, waits and reads over all directions", "why_tests_cant": "Staleness depends on the interleaving of partial-parity writes and partial-parity gathers; the number of histories is unbounded.", "anchors": ["libraries/plumbing/field.h: mark_changed, mark_gathered, is_gathered, gather_status, drop_comms", "libraries/plumbing/field_comm.h: start_gather, start_communication, wait_gather, resolve_started_parity"]}
{"id": "C06", "title": "Odd lattice sizes: reuse of a parity-restricted halo is not sound", "statement": "The staleness guarantee of C05 does not extend to lattices with an odd size in a direction split between ranks: there is a history of an EVEN gather, an EVEN write and another EVEN read after which the read returns the old neighbour value, because the wrap-around neighbour has the same parity and writing EVEN does not invalidate the EVEN halo.", "quantifier": "existence of a history on an odd-sized lattice, against the full claim for all lattices", "why_tests_cant": "The suite has no odd-sized multi-rank run, and the library accepts odd sizes without a diagnostic.", "anchors": ["libraries/plumbing/field.h: mark_changed", "libraries/plumbing/lattice.cpp: create_std_gathers, is_this_odd_boundary"]}
{"id": "C07", "title": "Overlapping computation with communication visits every site once and never too early", "statement": "In a site loop that overlaps communication with computation, every site of the loop parity is processed exactly once; sites that need a neighbour from another rank in a direction whose gather was still in flight when the loop started are processed only after the wait.", "quantifier": "every set of directions with outstanding gathers, every per-site neighbour mask, every loop range", "why_tests_cant": "The split into early and late sites depends on the pending-direction mask of the moment; tests exercise few masks.", "anchors": ["hilapp/src/codegen_cpu.cpp: generate_code_cpu", "libraries/plumbing/lattice.cpp: initialize_wait_arrays", "libraries/plumbing/field_comm.h: start_gather"]}
{"id": "C08", "title": "Direction and coordinate arithmetic is periodic and self-inverse", "statement": "opposite of opposite is the direction itself and never the direction itself; X+d-d is X and X+d is the same as moving -(-d); the modulo of a coordinate vector lies in [0,size) and is congruent; taking the periodic neighbour up and then down returns the site; parity of X+d is opposite to parity of X, and on lattices with even sizes also after periodic wrap.", "quantifier": "every dimension, every direction, every (also negative) coordinate vector, every lattice size", "why_tests_cant": "Negative coordinates and wrap-around in all directions are an infinite set.", "anchors": ["libraries/plumbing/coordinates.h: opp_dir, pmod, CoordinateVector::mod, parity, operator+=(Direction), opp_parity, parity_bits"]}
{"id": "C09", "title": "Blocked lattices stay rank-local and hold the subsampled field", "statement": "For every blocking factor that divides the lattice, the site X' of the blocked lattice lives on the same rank as the site b*X' of the parent, even when some ranks hold no site of the blocked lattice; block_from copies value f(b*X') to X' and unblock_to writes it back to exactly those sites and leaves all other sites of the parent unchanged.", "quantifier": "every lattice size, rank division, per-direction blocking factor dividing the size, field content", "why_tests_cant": "Rank-locality depends on integer division rounding for every rank division.", "anchors": ["libraries/plumbing/lattice.cpp: setup_blocked_lattice, block_by_factor, can_block_by_factor", "libraries/plumbing/field_comm.h: block_from, unblock_to"]}
{"id": "C10", "title": "lattice.block / unblock nesting", "statement": "lattice.block(f) followed by the same number of lattice.unblock() calls returns to the lattice one started from, for nested sequences in which the blocked sizes reached from different parents are different. When two different parents block to the same size the blocked lattice of the first parent is reused and unblock goes to the wrong parent.", "quantifier": "every sequence of block / unblock / switch operations; existence of the failing sequence for the unrestricted claim", "why_tests_cant": "The failing case needs two blocking chains that meet at the same size, a history tests do not contain.", "anchors": ["libraries/plumbing/lattice.cpp: block_by_factor", "libraries/plumbing/lattice.h: Lattice::block, unblock, switch_to, switch_to_base"]}
{"id": "C11", "title": "Automatic layout: accepted layouts are valid", "statement": "When the automatic division of the lattice among N ranks succeeds, the product of the divisions over the directions is exactly N, every rank gets a non-empty box, and the ranks' boxes tile the lattice. Every box has at least two sites in every direction, except possibly in the one direction that is divided unevenly, where boxes one site thick do occur although the routine rejects them.", "quantifier": "every lattice size, every rank count", "why_tests_cant": "The search depends on the prime factorisation of N and on the lattice size; only a few N are tested.", "anchors": ["libraries/plumbing/setup_layout_generic.cpp: setup_layout", "libraries/plumbing/setup_layout_simple.cpp"]}
{"id": "C12", "title": "Automatic layout terminates", "statement": "The automatic layout routine either finds a division or stops the program with a diagnostic. This fails for the code as it stands: if the first attempt (with ghost columns) fails and the second succeeds, the loop never ends.", "quantifier": "every lattice size and rank count; existence of a diverging input", "why_tests_cant": "Non-termination on a rare combination of size and rank count is not observable as a failed assertion.", "anchors": ["libraries/plumbing/setup_layout_generic.cpp: setup_layout (secondtime)", "libraries/plumbing/setup_layout_vector.cpp"]}
{"id": "C13", "title": "Single-site access from any rank", "statement": "set_element(v, c) changes the value at coordinate c to v and no other site; get_element(c) returns on every rank the value stored at c; compound assignments combine with the current value exactly once.", "quantifier": "every lattice, rank division, coordinate, field content, sequence of element operations", "why_tests_cant": "Has to hold for every owner rank and with values different on different ranks.", "anchors": ["libraries/plumbing/field.h: set_element, get_element, compound_add_element, increment", "libraries/plumbing/field_comm.h: set_elements, get_elements"]}
{"id": "C14", "title": "Collecting and distributing elements by coordinate list", "statement": "Collecting field values for a list of coordinates yields on the root exactly the values at those coordinates in list order, whatever ranks own them; distributing a list of values to a list of distinct coordinates sets exactly those sites, and collecting after distributing returns the distributed list.", "quantifier": "every list of coordinates (repeats allowed when collecting), every rank division and root rank", "why_tests_cant": "Ordering bugs show only for lists whose owner ranks interleave in particular ways.", "anchors": ["libraries/plumbing/field_comm.h: gather_elements, scatter_elements, set_elements, get_elements"]}
{"id": "C15", "title": "Field files are independent of the rank count and round trip", "statement": "Writing a field produces the same byte sequence for every division of the lattice into ranks and every write-buffer size of at least one site: the values in the global order with x running fastest. Reading that file on any division restores every site.", "quantifier": "every lattice size, two arbitrary (different) rank divisions, every buffer size >= 1 element, every field content", "why_tests_cant": "A file written on one machine and read on another with a different rank count is a pair of configurations tests do not enumerate.", "anchors": ["libraries/plumbing/field_io.h: write, read, write_fields, read_fields"]}
{"id": "C16", "title": "Reading a smaller configuration replicates it periodically", "statement": "Reading a configuration of a smaller lattice whose sizes divide the current sizes sets every site c to the stored value at c modulo the stored size. If a stored size does not divide the lattice size some sites are left unwritten although the whole field is marked as set.", "quantifier": "every pair of sizes; existence of an unwritten site in the non-dividing case", "why_tests_cant": "Only divisible sizes are ever tested.", "anchors": ["libraries/plumbing/field_io.h: read(std::ifstream&, CoordinateVector &insize)"]}
{"id": "C17", "title": "Shift by an arbitrary vector", "statement": "f.shift(v) holds at every site X the value f(X+v) of the original for every (also negative or longer than the lattice) offset vector v; shifting by v and then by w equals shifting by v+w, and shifting by v and -v restores the field. Shifting only the sites of one parity does the same on those sites and leaves the others of the result untouched when all lattice sizes are even; with an odd size the result can depend on uninitialised memory.", "quantifier": "every offset vector, lattice size, parity ALL", "why_tests_cant": "Offset decomposition into nearest-neighbour steps has infinitely many cases.", "anchors": ["libraries/plumbing/field_comm.h: shift, buffered_shift_offsets, do_buffered_shift"]}
{"id": "C18", "title": "Site-loop sums and products do not depend on the rank division", "statement": "After onsites(P) s += g(X), the variable s holds on every rank its old rank-0 value plus the sum of g over all lattice sites of parity P - each site counted once, the old value counted once - for every division into ranks; products likewise. Several reductions combined into one message deliver each result to its own variable.", "quantifier": "every division into ranks, every number of simultaneously reduced variables of different types and sizes, every field content (exact arithmetic)", "why_tests_cant": "Depends on the number of ranks and on which reductions are merged.", "anchors": ["hilapp/src/codegen.cpp: handle_reduction_init, handle_reduction_result", "libraries/plumbing/com_mpi.cpp: hila_reduce_double_setup, hila_reduce_sums", "libraries/plumbing/com_mpi.h: reduce_node_sum, reduce_node_product"]}
{"id": "C19", "title": "Reduction variables: delayed and immediate accumulation", "statement": "A Reduction<T> that is assigned a value and then accumulated in any number of site loops reads as assigned value + total of all contributions, in immediate mode and in delayed mode; in delayed mode this holds until the value is read: if accumulation continues after reading a delayed reduction without reassigning it, the earlier total is counted once per rank. Further histories that break it in the code as it stands: a reduction that was assigned and not yet accumulated reads as 0 on ranks other than 0; a `+=` outside site loops on a delayed reduction counts once per rank; switching delayed off before reading loses the pending combination.", "quantifier": "every history of assignments, loops and reads, every rank count; existence of the failing history", "why_tests_cant": "The failing history (delayed accumulate, read, accumulate, read) gives right results on one rank, which is how unit tests run.", "anchors": ["libraries/plumbing/reduction.h: Reduction::operator=, reduce_sum_node, reduce, value, start_reduce"]}
{"id": "C20", "title": "ReductionVector sums and products", "statement": "A ReductionVector summed in site loops holds at the end initial value + total, immediate or delayed. A delayed product reduction combines the rank contributions by multiplication. The latter fails for the code as it stands: the rank contributions of a delayed product are added; likewise assigning a value to a delayed vector with contributions still open multiplies the value by the number of ranks.", "quantifier": "every vector length, rank count, history; existence of the failing product", "why_tests_cant": "With one rank sum and product of a single contribution coincide.", "anchors": ["libraries/plumbing/reductionvector.h: init_sum, init_product, reduce_sum, reduce_product, start_reduce, operator="]}
{"id": "C21", "title": "Field minimum and maximum with location", "statement": "f.min(loc) / f.max(loc) return the extremal value over all sites (of the parity) and a site where it is attained, for every rank division. For max over floating-point fields this fails for the code as it stands: a field whose values are all negative gives the smallest positive number and no valid location. Also no location is reported when every value equals the largest (min) or smallest (max) number of the type.", "quantifier": "every field content, rank division; existence of the failing field", "why_tests_cant": "Needs all-negative data; randomised tests use [0,1) data.", "anchors": ["libraries/plumbing/reduction.h: Field::minmax, min, max"]}
{"id": "C22", "title": "Message tags never mismatch", "statement": "With tags taken from the cycling counter, the k-th send from rank A to rank B is matched with the k-th receive that B posted for A's messages in that direction, for any number of outstanding and past messages, also after the counter wrapped around, on any number of lattices and mixed with point-to-point messages.", "quantifier": "every program order of communication calls (equal on all ranks), every number of messages", "why_tests_cant": "Tag reuse begins only after 401 communications in flight or passed.", "anchors": ["libraries/plumbing/com_mpi.cpp: get_next_msg_tag", "libraries/plumbing/field_comm.h: start_communication"]}
{"id": "C23", "title": "Memory pool never hands out memory in use", "statement": "For every sequence of allocations and frees the pool returns a block that is at least as large as requested and is not currently in use by another live allocation; freeing makes exactly that block available again; a free block of suitable size is found again instead of allocating a new one; freeing an unknown pointer or freeing twice stops the program. Purging keeps all live blocks and gives back exactly the unused ones; in a build without GPU this fails for the code as it stands: a purge with an unused block stops the program.", "quantifier": "every sequence of alloc / free / purge", "why_tests_cant": "The first-free-block hint can only go wrong after particular interleavings of frees and allocations.", "anchors": ["libraries/plumbing/memory_pool.cpp: alloc, free, purge"]}
{"id": "C24", "title": "Site selection collects every selected site up to the limit", "statement": "After a loop with a site selection, rank 0 holds the selected sites of all ranks in rank order, cut at the requested maximum number, values aligned with sites, and the overflow count equals the number of selected sites that were dropped. This holds with values when a loop selects each site at most once; selecting a site again keeps the first value and can write past the vector, and lowering the maximum between the loop and a delayed join gives a result longer than the maximum, in the code as it stands.", "quantifier": "every per-rank selection list, every rank count, every maximum", "why_tests_cant": "The interplay of per-rank limit, send count and overflow has to be right for every distribution of selected sites over ranks.", "anchors": ["libraries/plumbing/site_select.h: select_site, join, join_data_vectors, endloop_action, select_site_value"]}
{"id": "C25", "title": "Cluster labels identify the connected components", "statement": "Cluster finding ends, and then two sites carry the same label exactly when they are connected through nearest-neighbour steps over sites of the same type; background sites carry the background label. The label of a cluster is the smallest site index in it combined with the type. (Reads of neighbours on other ranks are those of C05, taken at the start of the loop over a parity.)", "quantifier": "every lattice size, every type field, every update order of the two parities, every cluster shape", "why_tests_cant": "Long winding clusters need many relaxation rounds, arbitrary in number.", "anchors": ["libraries/plumbing/clusters.h: make_labels, set_cl_label, get_cl_label_type"]}
{"id": "C26", "title": "Cluster list is complete for any number of ranks", "statement": "The list of clusters contains every cluster exactly once, sorted by label, with its total number of sites, for any number of ranks (not only powers of two).", "quantifier": "every number of ranks, every list of local labels on every rank", "why_tests_cant": "Binary-tree merging has edge cases at rank counts that are not powers of two.", "anchors": ["libraries/plumbing/clusters.h: classify, make_local_clist, merge"]}
{"id": "C27", "title": "Cluster label encoding", "statement": "Type and site index are recovered from a cluster label for all types 0..254 and all site indices below 2^54; different (type, site) pairs give different labels and the background label is different from all of them and larger. Types above 255 are not diagnosed and lose their upper bits.", "quantifier": "every type and site index in range", "why_tests_cant": "64-bit value space.", "anchors": ["libraries/plumbing/clusters.h: set_cl_label, get_cl_label_type"]}
{"id": "C28", "title": "Command line flags collect their arguments", "statement": "For every command line, after parsing, each known flag holds the concatenation in order of the non-flag words that follow its occurrences; words that belong to no known flag and wrong argument counts are diagnosed. Missing arguments (none at all) of a flag that is the last word, also after flags that come before it in alphabetical order are taken out, are not diagnosed, and asking for the values of a flag that was never declared is silently accepted, in the code as it stands.", "quantifier": "every argument vector and flag declaration list; existence of the undiagnosed inputs", "why_tests_cant": "Argument vectors are unbounded.", "anchors": ["libraries/plumbing/cmdline.cpp: values, read_arg_vector, fill_argmap, add_flag, get_int, get_string"]}
{"id": "C29", "title": "Random shuffles are permutations", "statement": "hila::shuffle returns a rearrangement of the input (no element lost or duplicated) for every outcome of the generator in [0,1), never indexing outside the array, and every permutation is reachable; shuffled directions and parities contain every (parity, direction) exactly once and agree on all ranks.", "quantifier": "every array length, every sequence of random numbers in [0,1)", "why_tests_cant": "All random sequences.", "anchors": ["libraries/plumbing/shuffle.h: shuffle, shuffle_directions, shuffle_directions_and_parities"]}
{"id": "C30", "title": "Different ranks get different random seeds", "statement": "For every user seed, the seeds derived for two different ranks differ (up to 2^31 ranks; with partitions up to 2^28 ranks in total). With seed 0 every partition reads its own clock, and two ranks of different partitions can get the same seed.", "quantifier": "every 64-bit seed, every pair of ranks and partitions", "why_tests_cant": "64-bit seeds times all pairs of ranks.", "anchors": ["libraries/plumbing/random.cpp: shuffle_rng_seed, seed_random"]}
{"id": "C31", "title": "FFT pencil redistribution loses nothing", "statement": "Redistributing a field into full columns along a direction and back is the identity for every rank division in which every rank has sites, every column is complete and owned by exactly one rank of the row, and the buffer sections used by different ranks do not overlap. It fails if some rank has no sites (division by zero in the set-up) and if no direction is active (the result is read from memory that was never written).", "quantifier": "every lattice size, rank division, transform direction, field content", "why_tests_cant": "Column counts not divisible by the number of ranks in the row appear for few configurations.", "anchors": ["libraries/plumbing/fft.cpp: init_pencil_direction, pencil_get_buffer_offsets", "libraries/plumbing/fft.h: collect_data, save_result, gather_data, scatter_data"]}
{"id": "C32", "title": "Field reflection", "statement": "f.reflect(d) gives r(x) = f(L - x mod L) along d. Holds for even L; for odd L >= 3 the middle pair is left unswapped by the code as it stands.", "quantifier": "every column length and content; existence of the failing odd length", "why_tests_cant": "Tests use even sizes only.", "anchors": ["libraries/plumbing/fft.cpp: reflect", "libraries/plumbing/fft.h"]}
{"id": "C33", "title": "Momentum-space symmetry of complex-to-real transform setup", "statement": "The selection of independent Fourier modes is antisymmetric under k -> -k: exactly one of x and -x is marked as primary unless x = -x, so a field symmetrised with it satisfies F(-k) = conj F(k), for all even lattice sizes.", "quantifier": "every dimension, even sizes, every site", "why_tests_cant": "All sites of all lattices.", "anchors": ["libraries/plumbing/fft.h: FFT_complex_to_real_site, FFT_complex_to_real"]}
{"id": "C34", "title": "Extended precision accumulation is exact up to the last compensation", "statement": "Adding a double to an ExtendedPrecision variable preserves the sum value+compensation+compensation2 exactly up to the rounding of the last compensation; a sum of n doubles that are multiples of 2^u is exact, in every order, if 4 n^2 times the sum of magnitudes is at most 2^(159+u); variables that hold the same number compare equal. Multiplication by an integer k gives exactly k times the number, with the same room, if the odd part of k is at most a quarter (signed) or half (unsigned) of the range of its type; it fails otherwise: signed types overflow, with unsigned types the loop never ends. Subtracting an unsigned integer adds its wrapped negative.", "quantifier": "every finite double sequence without overflow; every integer multiplier; existence of the overflowing multiplier", "why_tests_cant": "All doubles and all multipliers.", "anchors": ["libraries/datatypes/extended.cpp: operator+=", "libraries/datatypes/extended.h: operator*=, operator+=, to_double"]}
{"id": "C35", "title": "Vectorised storage keeps elements apart", "statement": "In the vectorised storage layout, writing site i and reading it back gives the value written, and no other (site, component) changes; every address stays within the allocated array and belongs to exactly one (site, component). Reading or writing a whole vector is reading or writing its sites, also when vectors are sent to another node as blocks of memory, and filling the halo vectors from vectors of the same node changes the halo sites only, each getting the site the lane permutation names.", "quantifier": "every vector length, element size, site and component", "why_tests_cant": "All index combinations.", "anchors": ["libraries/plumbing/backend_vector/field_storage_backend.h: set_element, get_element"]}
{"id": "C36", "title": "The source-rewriting buffer behaves like an edited text", "statement": "For every sequence of insert, remove, replace, append, prepend, on/off and copy operations the text the buffer dumps is the text obtained by applying the edits to the original, and the text reported for a sub-range is the corresponding part; the original text queries are unaffected by edits; recycled insertion slots never leak text into other places; the sequence fails exactly when an edit lies outside the text. Exception: after a prepend, a dump ends with one blank that nobody inserted if the last character of the text has been removed and nothing put in its place.", "quantifier": "every original text and every edit history", "why_tests_cant": "Histories are unbounded; slot recycling needs remove-then-insert interleavings.", "anchors": ["hilapp/src/srcbuf.cpp: insert, remove, replace, get_mapped, get, dump, remove_extent, copy_from_range", "hilapp/src/srcbuf.h"]}
{"id": "C37", "title": "Word matching helpers of the preprocessor", "statement": "find_word reports only occurrences that are whole words; contains_word_list accepts a line only if it starts with the listed words. Both fail in the code as it stands: a word followed by exactly one more character is accepted by the first, which also gives up at the first occurrence, and words run together or a longer final word are accepted by the second; apart from that each does exactly what it should. Removing white space keeps the words, commenting and indenting keep the lines, a cleaned name has only name characters, and removing X takes away X and the plus sign only (the plus sign stays if there is superfluous white space).", "quantifier": "every text and pattern; existence of failing texts", "why_tests_cant": "All strings.", "anchors": ["hilapp/src/stringops.cpp: find_word, contains_word_list, remove_extra_whitespace, comment_string"]}
{"id": "C38", "title": "Compiler options are moved behind the separator without loss", "statement": "The preprocessor's argument rearrangement moves exactly the -I/-D options (one- or two-word form) that stand before -- to behind it, keeping their order and the order of all other arguments; no argument is lost or duplicated. If there are several -- the last one counts.", "quantifier": "every argument vector", "why_tests_cant": "All argument vectors.", "anchors": ["hilapp/src/stringops.cpp: handle_cmdline_args"]}
{"id": "C39", "title": "Multicanonical histogram binning", "statement": "An order-parameter value strictly inside the range is counted in exactly the bin whose limits enclose it (lower < value <= upper), a value outside, or equal to the first or the last limit, is counted nowhere; the number of hits equals the number of in-range values seen.", "quantifier": "every sorted list of bin limits, every sequence of values", "why_tests_cant": "Values equal to a limit and non-uniform bins.", "anchors": ["libraries/tools/multicanonical.cpp: find_OP_bin_index, bin_hit_OP_value, iterate_weight_function_direct"]}
{"id": "C40", "title": "Multicanonical weight interpolation", "statement": "The weight function passes through the bin-centre weights, is linear between adjacent centres (always between the two neighbouring weights), constant outside without hard walls and infinite at and outside the first and last centre with hard walls (so these two centres do not have the weight of their bin then), for every strictly increasing list of centres; the index used is always in range, and moves to places of infinite weight are rejected.", "quantifier": "every list of bin centres and weights, every order-parameter value", "why_tests_cant": "Continuum of inputs.", "anchors": ["libraries/tools/multicanonical.cpp: weight_function, weight"]}
{"id": "C41", "title": "Multicanonical weight file round trip", "statement": "A weight file written by the program and read back gives the same bin limits and weights up to one part in a million (seven digits are printed, and values are read as floats although they are doubles, so limits that are closer come back equal) and the midpoints of the limits as centres, whatever free-form header lines are added in front as long as they do not contain the column keyword.", "quantifier": "every weight table of at least one bin, every header", "why_tests_cant": "Row counting is by position; off-by-one errors depend on header and table length.", "anchors": ["libraries/tools/multicanonical.cpp: write_weight_function, read_weight_function"]}
{"id": "C42", "title": "Multicanonical iteration status is well defined", "statement": "Each weight-iteration call returns a definite answer whether to continue, on all ranks. Holds for the direct methods with samples and with smoothing. Fails in the code as it stands: with sample size 1 the answer is an uninitialised value except on every check-interval-th call; and the canonical method divides by zero when the maximum number of iterations is below 100.", "quantifier": "every call history; existence of the undefined call", "why_tests_cant": "Uninitialised values often happen to be right in a test run.", "anchors": ["libraries/tools/multicanonical.cpp: iterate_weight_function_direct_single, iterate_weight_function_canonical"]}
{"id": "C43", "title": "Checkpoint survives a crash at any point", "statement": "With saving of the old configuration enabled, at every crash point during checkpointing at least one complete configuration (new or previous) exists on disk. The stronger claim that restarting resumes with a configuration belonging to the recorded trajectory number fails for crash points between writing the configuration and updating the status file, and for crash points during the configuration write the restart ends with an error although the previous configuration is complete, because it never looks at that file; after two crashes in a row it can even start from the beginning.", "quantifier": "every crash point, every sequence of checkpoints; existence of failing crash points", "why_tests_cant": "Crash points cannot be enumerated by a unit test.", "anchors": ["libraries/tools/checkpoint.h: checkpoint, restore_checkpoint"]}
{"id": "C44", "title": "Momentum binning information is consistent with the binning parameters", "statement": "k(b) and count(b) return the average momentum and the number of lattice points of bin b for the current binning parameters as long as all parameters are set before the first question; sums of fields over bins always follow the current parameters, and the reported bin limits are those used. Fails as the code stands when parameters change later: the cached information is not recomputed and may be indexed out of range; and the reported bin width is wrong after the number of bins and then the largest momentum have been set.", "quantifier": "every history of parameter changes and queries; existence of the failing history", "why_tests_cant": "Needs a particular call order.", "anchors": ["libraries/plumbing/spectraldensity.h: k_binning::k, count, bins, k_max, sd_calculate_bin_info"]}
{"id": "C45", "title": "Levi-Civita table", "statement": "The table of the N-dimensional Levi-Civita symbol lists every permutation of 0..N-1 exactly once, together with its sign.", "quantifier": "every N", "why_tests_cant": "Tests can check a few N.", "anchors": ["libraries/tools/levi_civita.h: levi_civita"]}
{"id": "C46", "title": "Integrators are reversible and advance the right time", "statement": "Leapfrog and second-order (Omelyan) integrators at any nesting depth are time reversible: a step of size eps followed by a step of -eps restores fields and momenta exactly (exact arithmetic), and the innermost update advances by total time eps per step, for every number of substeps.", "quantifier": "every nesting of integrators, every substep count, every step size and state", "why_tests_cant": "Compositions of arbitrary depth.", "anchors": ["libraries/hmc/integrator.h: leapfrog_integrator::step, O2_integrator::step, action_term_integrator"]}
{"id": "C47", "title": "Conjugate gradient residual is the true residual", "statement": "At every iteration the recursively updated residual equals source minus operator applied to the current solution, so when the solver stops because the residual is small the returned field solves the equation to the requested accuracy (exact arithmetic). For an invertible operator and a positive target it always does so, within as many iterations as the field has components, unless the starting guess is exact. If the starting guess is already exact (in particular for a zero source) the code divides zero by zero.", "quantifier": "every linear operator, source, starting guess, number of iterations; existence of the 0/0 case", "why_tests_cant": "All operators and sources.", "anchors": ["libraries/dirac/conjugate_gradient.h: CG::apply"]}
{"id": "C48", "title": "Staples complete plaquettes and the plaquette is gauge invariant", "statement": "The trace of every plaquette and every closed straight line (Polyakov loop) is unchanged by an arbitrary gauge transformation; the staple sum transforms covariantly, and the trace of link times staple sum equals the sum of the traces of the plaquettes containing the link. As the code stands, the staple sum over one parity of a lattice with an odd size uses unassigned values, and the Polyakov loop of the hmc library averages single links and is not gauge invariant.", "quantifier": "every gauge field, gauge transformation, lattice size, direction pair", "why_tests_cant": "All fields and transformations.", "anchors": ["libraries/gauge/staples.h: staplesum", "libraries/plumbing/gaugefield.h: measure_plaq", "libraries/gauge/polyakov.h: measure_polyakov"]}
{"id": "C49", "title": "Staggered Dirac operator and its conjugate", "statement": "The operator applied by dagger() is the adjoint of the operator applied by apply() with respect to the lattice scalar product, for every gauge field, mass, and pair of vectors; likewise for the even-odd operator on the even sites of lattices with even sizes. As the code stands, the even-odd operator is not the Schur complement of the full operator: it has the wrong sign in front of the hopping terms and can be singular where the full operator is not.", "quantifier": "every gauge field, mass, vectors, lattice size, boundary condition", "why_tests_cant": "All fields.", "anchors": ["libraries/dirac/staggered.h: apply, dagger, dirac_staggered_hop, init_staggered_eta"]}
{"id": "C50", "title": "Partitions split the ranks evenly", "statement": "When the ranks are divided into P partitions (P dividing the number of ranks), every partition gets the same number of consecutive ranks, and renumbered ranks inside a partition are 0..n-1; other P are diagnosed. The product of rank and P is an int, which overflows for large numbers of partitions (65536 partitions of one rank), in the code as it stands.", "quantifier": "every rank count and partition count", "why_tests_cant": "All pairs.", "anchors": ["libraries/plumbing/initialize.cpp: setup_partitions", "libraries/plumbing/com_mpi.cpp: split_into_partitions"]}
{"id": "C51", "title": "Neighbour reads of the target after unblock_to", "statement": "After unblock_to every rank that holds sites of the blocked lattice sees the new values of the target field when it reads a neighbouring site. Ranks that hold no site of the blocked lattice return early without invalidating their gathered halo, and read the old values of changed neighbour sites (refuted for these ranks).", "quantifier": "every lattice, blocking factor, rank holding blocked sites, direction, field content; existence of the failing case", "why_tests_cant": "needs more ranks than blocked sites along a direction and a halo gathered before; small tests run with few ranks", "anchors": ["libraries/plumbing/field_comm.h: unblock_to", "libraries/plumbing/field.h: mark_changed"]}
{"id": "C52", "title": "Surface area of a cluster", "statement": "The area reported for a cluster is the number of lattice links with exactly one end in the cluster, each counted once, on periodic lattices of any size (on directions of size 2 two links join the same pair of sites).", "quantifier": "every lattice, every label field, every cluster", "why_tests_cant": "the code counts over both directions from inside; that this counts every link once needs the bijection of sites under shifts for all shapes", "anchors": ["libraries/plumbing/clusters.h: area"]}
{"id": "C53", "title": "Clusters from links", "statement": "Cluster finding from a link field puts sites joined by chains of non-zero links in one cluster and sites without links in the background. Two sites in one cluster need not be joined by links: neighbouring sites that both have links are joined even without a link between them, in the code as it stands.", "quantifier": "every lattice, every link field; existence of the failing case", "why_tests_cant": "tests with one group of links cannot see merged groups", "anchors": ["libraries/plumbing/clusters.h: find"]}
{"id": "C55", "title": "Compiler asked for its include directories", "statement": "When the preprocessor asks a compiler for its include directories, it asks the newest g++ installed, and for the language standard given on the command line. Both fail in the code as it stands: the option loses the c of c++20, and the version number is read from the wrong characters.", "quantifier": "every argument vector, every list of compiler names; existence of failing ones", "why_tests_cant": "Depends on the machine the preprocessor runs on.", "anchors": ["hilapp/src/stringops.cpp: handle_cmdline_args, get_includes_from_gcc"]}
{"id": "C56", "title": "Direct multicanonical weight iteration", "statement": "After each full sample of the direct method every weight has grown by C times the number of bins times the fraction of the sample that fell into its bin, up to one common shift that makes the least weight zero; the counters are cleared, and C is divided by 1.5 exactly when the finishing condition holds for the accumulated totals. With sample size 1 each value in range raises the weight of its own bin by C and no other; the smooth method spreads each value over five bins with weights 1, 3, 5, 3, 1.", "quantifier": "every well-formed weight table, every sample of values", "why_tests_cant": "Holds for all samples and tables, including values outside the range.", "anchors": ["libraries/tools/multicanonical.cpp: iterate_weight_function_direct, iterate_weight_function_direct_single, all_visited, first_last_visited"]}
{"id": "C57", "title": "Canonical multicanonical weight iteration", "statement": "The canonical update makes the new weight difference of two adjacent bins the data-weighted average of the old one and of the logarithm of the ratio of the densities (histogram divided by bin width) in the two bins, and leaves it alone if a bin has too few hits. Fails in the code as it stands for the last bin, whose histogram is not divided by its width.", "quantifier": "every weight table, histogram and logarithm function; existence of a failing table with bins of different widths", "why_tests_cant": "Needs bins of different widths, seen only in the last weight.", "anchors": ["libraries/tools/multicanonical.cpp: iterate_weight_function_canonical"]}
{"id": "C58", "title": "Hybrid Monte Carlo update", "statement": "A rejected trajectory leaves the gauge field exactly as it was; an accepted one leaves the end of the trajectory that starts from the old field and the freshly drawn momenta. The trajectory is reversible (started at its end with reversed momenta it leads back) and advances by the requested length, for every integrator, number of steps and length.", "quantifier": "every integrator hierarchy, number of steps, trajectory length, momenta, outcome of the acceptance test", "why_tests_cant": "Needs all integrators and both outcomes of a random decision.", "anchors": ["libraries/hmc/hmc.h: update_hmc", "libraries/hmc/gauge_field.h: gauge_field::backup, restore_backup, gauge_update", "libraries/hmc/integrator.h"]}
{"id": "C59", "title": "Determinants of square matrices", "statement": "The determinant of a square matrix, by Laplace expansion (sizes up to four), by LU decomposition (larger sizes), or by explicitly calling either, equals the mathematical determinant of the matrix: for singular matrices, matrices with zeros on the diagonal and rows of zeros too (exact arithmetic).", "quantifier": "every size and every matrix of rational, real or complex numbers", "why_tests_cant": "Tests compare a few matrices of one size; the claim quantifies over all sizes and all patterns of zeros that trigger row exchanges and early returns.", "anchors": ["libraries/datatypes/matrix_linalg.h: Minor, det_laplace, det_lu, det"]}
{"id": "C60", "title": "LU decomposition, linear equations and inverse", "statement": "For every invertible matrix the LU decomposition succeeds and gives a unit lower and an upper triangular factor whose product is the matrix with its rows permuted as reported; solving with it returns the unique solution of the linear equations for every right hand side, and inverting returns the two-sided inverse (exact arithmetic). As the code stands, a singular matrix can give a decomposition that is not one of the matrix, without any NaN or infinity.", "quantifier": "every size, matrix and right hand side", "why_tests_cant": "Tests use a few random matrices, which never need the rare row exchanges and are never singular.", "anchors": ["libraries/datatypes/matrix_linalg.h: LU_decompose, LU_result::solve, LU_result::invert"]}
{"id": "C61", "title": "Site order of the vectorised layout", "statement": "In the vectorised (AVX) layout every rank numbers its sites 0 .. volume-1 without gaps or repetitions, even sites first, and the coordinates table inverts the numbering. Cut into vectors of either element size, the numbering puts sites at the same place of their subnodes in one vector and each subnode in one lane, the same lane on every rank.", "quantifier": "every dimension, lattice size, division into ranks and subnodes that the setup accepts, both vector widths", "why_tests_cant": "Tests run on one machine with one vector width and a few lattice sizes; the interleaving of the merged direction matters only for particular divisions.", "anchors": ["libraries/plumbing/lattice.cpp: site_index (SUBNODE_LAYOUT)", "libraries/plumbing/backend_vector/lattice_vector.h"]}
{"id": "C62", "title": "Halo of a vectorised field", "statement": "After any history of halo updates of a vectorised field, in any directions and parities, every rank still has the values of its own sites, and for every direction and parity that was updated, reading the neighbour vector of a site in that site's lane gives the field at the periodic neighbour: in the same subnode, in another lane, across the lattice edge or on another rank.", "quantifier": "every dimension, lattice, division into ranks and subnodes, vector width, history of updates, element type and contents of the halos before", "why_tests_cant": "Tests run one vector width and few divisions; which lanes are permuted, copied locally or received depends on the division of each direction.", "anchors": ["libraries/plumbing/backend_vector/lattice_vector.h", "libraries/plumbing/backend_vector/field_storage_backend.h", "libraries/plumbing/field_comm.h: start_gather, wait_gather"]}
{"id": "C63", "title": "Antiperiodic boundaries of a vectorised field", "statement": "With an antiperiodic boundary condition the halo update of a vectorised field delivers the neighbour's value, negated exactly when the step crosses the edge of the lattice, in every direction that is not divided between the lanes of a vector. As the code stands it is wrong in divided directions: lanes whose neighbour is inside the lattice are negated too.", "quantifier": "as C62", "why_tests_cant": "As C62; the error is silent and shows only with particular divisions.", "anchors": ["libraries/plumbing/field_comm.h: gather_comm_elements, set_local_boundary_elements", "libraries/plumbing/backend_vector/field_storage_backend.h: set_local_boundary_elements, gather_comm_vectors"]}
{"id": "C64", "title": "Division of the lattice among ranks and vector lanes", "statement": "If the automatic layout for the vectorised build accepts a division, the division is usable: boxes tile the lattice, there are exactly the requested numbers of ranks and lanes, every rank has sites and divides evenly into lanes, divided directions have an even extent per lane and a second direction is even, so that the site order and halo of C61-C63 work. The routine ends in one attempt if ranks times lanes divides the volume. As the code stands it does not end for some other sizes (16^3 x 48 on 5 ranks of 8 lanes: the second attempt succeeds and is repeated forever), and the exit marked 'CANNOT HAPPEN' is taken for others (8^4 on 3 ranks of 8 lanes).", "quantifier": "every dimension from 2, lattice size, number of ranks and number of lanes from 2", "why_tests_cant": "The failing sizes are those where the first choice of uneven direction is rejected; layouts depend on number-theoretic coincidences that a few test sizes do not meet.", "anchors": ["libraries/plumbing/setup_layout_vector.cpp: lattice_struct::setup_layout"]}
{"id": "C65", "title": "Matrix and vector arithmetic", "statement": "Products of matrices and vectors, sums, products with numbers, transposes, conjugate transposes, traces, scalar and outer products, products with a 2 by 2 block and permutations of rows and columns are those of linear algebra, and no uninitialised element enters. (ab)^dagger = b^dagger a^dagger. mult, mult_aa, mult_add and mult_sub give the product whatever the result held before, M *= M squares M, and a product with a number may be written to the matrix itself. As the code stands, mult(a, b, a), mult(a, b, b) and mult_add(a, b, a) do not give the product, and M += M.e(0,0) and mult(M, M.e(0,0), M) change the number while it is still being used.", "quantifier": "every size, every matrix over every field with a norm (rational, real, complex) and every conjugation; in-place calls", "why_tests_cant": "Tests multiply a few matrices of size 2 to 4 with distinct results; which argument may be the same object as the result can be known only from the order of all reads and writes.", "anchors": ["libraries/datatypes/matrix.h: Matrix_t::operator*, operator+=, operator-=, operator*=, transpose, dagger, trace, mul_trace, dot, outer_product, mult_by_2x2_left, mult_by_2x2_right, permute_rows, permute_columns; mult, mult_aa, mult_add, mult_sub"]}
{"id": "C66", "title": "Powers and exponentials of matrices", "statement": "pow(m, p) is the p-th power for 0 <= p < 2^32 and always ends; exp(m, order) is the exponential series up to the given order; mult_exp gives M exp(A) and in its second result the derivative of tr(M exp(A)) with respect to A; altexp gives the series up to the order in niter, where niter = 1 reports the largest order, 15 n - 1. As the code stands the exponent is reduced modulo 2^32 (a larger one, or a negative one, gives another power without an error), and altexp stops when the squared norm happens to be unchanged: of minus two times the unit matrix it returns the unit matrix.", "quantifier": "every square matrix, every exponent, order and comparison of norms", "why_tests_cant": "Exponents near 2^32 and matrices whose partial sums keep their norm are not met by chance; that a truncated derivative is the derivative of the truncated series, at every order, is an identity between polynomials in the matrix.", "anchors": ["libraries/datatypes/matrix.h: pow, exp, altexp, mult_exp"]}
{"id": "C67", "title": "The exponential by the Cayley-Hamilton theorem", "statement": "For n >= 2, chexp halves the matrix until its norm is below the limit, say m times, and gives the exponential series of A / 2^m up to some power K with n <= K < 25 n, raised to the power 2^m; this holds whatever the square root, the norm and the comparison of rounded numbers give, so that rounding in the rescaling and in the test for convergence can affect K only. The halving goes on exactly as long as the norm is not below the limit. Without halving the returned number is K (or 25 n for K = 25 n - 1). As the code stands the returned number is n whenever the matrix was halved, and for n = 1 an element outside of the temporary array is written.", "quantifier": "every size, every matrix over every field with a norm, every norm, limit, square root and comparison", "why_tests_cant": "The result is a polynomial in the matrix whose coefficients go through a recursion with rescaling and reduction modulo the characteristic polynomial; a test compares a few results with a tolerance and cannot show that the coefficients are those of the series at every order and size.", "anchors": ["libraries/datatypes/matrix.h: chexp"]}
{"id": "C68", "title": "Sorting of vectors", "statement": "V.sort(permutation, order) returns the elements of V in the order given by permutation, and permutation contains each index exactly once, whatever the comparison of elements gives (also if some of them are not numbers). If the comparison is a strict weak order, the result is ascending or descending as asked for, and elements which compare equal keep their order in V, which determines the permutation completely. With the order unsorted nothing is moved. V itself is not changed.", "quantifier": "every size, every vector, every comparison, every previous content of the permutation", "why_tests_cant": "An insertion sort by swaps of indices is right or wrong only over all orderings of all sizes, ties and unordered elements (NaN); a test checks a few vectors.", "anchors": ["libraries/datatypes/matrix.h: Matrix_t::sort, Matrix_t::permute", "libraries/datatypes/array.h: Array::sort", "libraries/datatypes/diagonal_matrix.h: DiagonalMatrix::sort"]}
{"id": "C69", "title": "Eigenvalues of hermitean matrices", "statement": "For n >= 2 and a hermitean matrix A, eigen_hermitean(E, U, order) returns a unitary matrix U and real numbers E in the order asked for, which are the diagonal elements of D = U^dagger A U. The sum of the squared elements of D off the diagonal has been reduced at least by the factor 1 - 2/(n(n-1)) with each rotation; if fewer than 100 n^2 rotations were made, each of them is at most eps sqrt(|E_k E_l|) for some k, l. The same sum is the squared norm of A U - U E. As the code stands, there is no defined result for 1 by 1 matrices.", "quantifier": "every size, every hermitean matrix of real or complex numbers, every order, every tolerance >= 0", "why_tests_cant": "Convergence and unitarity are statements about all matrices and any number of rotations; a test looks at random matrices of one size.", "anchors": ["libraries/datatypes/matrix_linalg.h: eigen_hermitean, hila::find_largest_offdiag, hila::diagonalize_2x2, hila::GivensMatrix"]}
{"id": "C70", "title": "Singular value decomposition with pivoting", "statement": "For n >= 2 and every matrix A, svd_pivot(U, S, V, order) returns a unitary V and numbers S >= 0 in the order asked for, which are the norms of the columns of A V; the columns of U are those of A V divided by S. The sum of the squared products of different columns has been reduced at least by the factor 1 - 2/(n(n-1)) with each rotation; if fewer than 100 n^2 rotations were made, each of these products is at most eps S_k S_l for some k, l. For an invertible A, S > 0, A = U S V^dagger and the columns of U are normalised. As the code stands, U is the quotient of zero and zero for A = 0, and there is no defined result for 1 by 1 matrices.", "quantifier": "every size, every matrix of real or complex numbers, every order, every tolerance >= 0", "why_tests_cant": "Unitarity, convergence and the reconstruction of A are statements about all matrices and any number of rotations; random test matrices are invertible.", "anchors": ["libraries/datatypes/matrix_linalg.h: svd_pivot, hila::find_largest_offdiag, hila::diagonalize_2x2"]}
{"id": "C71", "title": "Singular value decomposition by sweeps", "statement": "For every matrix A, svd(U, S, V, order) returns a unitary V and numbers S >= 0 in the order asked for, which are the norms of the columns of A V; for an invertible A, S > 0, A = U S V^dagger and the columns of U are normalised. This is so whatever non-negative number the variable holds that the code reads without having initialised it. If that variable keeps its value from the turn before, and fewer than 100 n^2 pairs of columns were looked at, the products of different columns of U are at most eps. As the code stands this last fact does not follow: with another value there, the loop may stop with columns that are not orthogonal.", "quantifier": "every size, every matrix of real or complex numbers, every order, every tolerance >= 0, every non-negative content of the uninitialised variable", "why_tests_cant": "What an uninitialised variable holds depends on the compiler; a test sees one compiler's choice, and the loop has to stop with orthogonal columns for every matrix.", "anchors": ["libraries/datatypes/matrix_linalg.h: svd, hila::diagonalize_2x2"]}
{"id": "C72", "title": "Reunitarisation and random SU(N) matrices", "statement": "make_unitary() of an invertible matrix gives a unitary matrix, each row of which is a positive multiple of the same row of the matrix plus multiples of the rows above; this determines the result, and a unitary matrix is not changed. fix_det() multiplies a unitary matrix with a phase so that its determinant is 1. reunitarize() therefore gives a matrix of SU(N) for every invertible matrix, and does not change a matrix of SU(N). random(nhits) gives a matrix of SU(N) for every N, every number of hits and every sequence of random numbers in which no four numbers drawn together are all zero.", "quantifier": "every N, every invertible matrix of real or complex numbers, every number of hits and every sequence of random numbers", "why_tests_cant": "A simulation calls reunitarize after each update of every link for days; a matrix outside the group would go unnoticed. Random test matrices show the result for a few matrices and sizes.", "anchors": ["libraries/datatypes/sun_matrix.h: SU::make_unitary, SU::fix_det, SU::reunitarize, SU::random"]}
{"id": "C73", "title": "Lie algebra of SU(N)", "statement": "generator_list gives N*N-1 antihermitean traceless matrices l_k with tr(l_k^+ l_m) = 1/2 for k = m and 0 otherwise, in the order and with the elements that the comments state, and never writes behind the end of the arrays. expand() of a vector of real components is their sum times the l_k; expand_scaled(s) is s times that. project_to_algebra() gives the components 2 Re tr(l_k^+ A) of any matrix, the version with a scale factor these times the factor, and the version with a second result also the sum of their absolute values. expand() followed by project_to_algebra() gives the same components; project_to_algebra() followed by expand() gives the antihermitean traceless part of the matrix. dot() of two vectors is tr(a^+ b) of their matrices. right_conjugation and left_conjugation with a unitary U give U^+ E U and U E U^+, undo each other and keep dot().", "quantifier": "every N >= 1, every vector of real components, every matrix, every unitary matrix", "why_tests_cant": "Momenta and forces of a molecular dynamics simulation live in the algebra. A wrong factor for one generator of a large N changes the distribution that is simulated and nothing else; tests look at N = 2 or 3.", "anchors": ["libraries/datatypes/sun_matrix.h: SU::project_to_algebra, SU::project_to_algebra_scaled, Algebra::generator_list, Algebra::expand, Algebra::expand_scaled, Algebra::dot, right_conjugation, left_conjugation, Alg_gen"]}
{"id": "C74", "title": "Products of SU(N) generators and bilinear forms", "statement": "generator_product_list, given freshly constructed arrays, holds the products of all pairs of generators and never writes behind the end of an array of N elements. project_to_algebra_bilinear gives 2 Re tr(l_i^+ w1 l_j w2) for two matrices, 2 Re tr(l_i^+ w l_j) with the list of products, and 2 Re sum_kl tr(l_i^+ w[k][l]) (l_j)_kl for an array of matrices. Two things do not hold: an array of products that has been filled cannot be given to generator_product_list again, though it is declared as output only, since elements are then written behind its end for every N >= 2; and the form with an array of matrices is not the one of the comment in the code, which has (l_j)_lk.", "quantifier": "every N >= 1, all matrices, all pairs of generators", "why_tests_cant": "The number of elements of a product that are not zero depends on N and on the pair; whether it ever exceeds N is not seen by a test of a few N. Memory behind an array may go unnoticed.", "anchors": ["libraries/datatypes/sun_matrix.h: Algebra::generator_product_list, project_to_algebra_bilinear, Alg_gen::push"]}
{"id": "C75", "title": "SU(2) kept as four numbers", "statement": "convert_to_2x2_matrix turns the arithmetic of SU2 (sums, differences, products, products and sums with numbers, negation, dagger) into that of 2 x 2 matrices; trace(), det() and mul_trace() are those of the matrices, and the matrix is in SU(2) just if det() is 1. squarenorm() is half of the sum of the squared absolute values of the elements. normalize(), reunitarize() and random() give an element of SU(2), the same matrix divided by a positive number, if det() is not 0. Every element of SU(2) is met, by exactly one SU2. Re tr(u A) for an element u of the subgroup of rows i and j is tr(u v) plus a constant, v from project_from_matrix(A, i, j). For the algebra: expand() is (i/2)(a s1 + b s2 + c s3), project_to_algebra() is its inverse and gives the antihermitean traceless part of any SU2; dot() is 2 tr(E^+ E'); conjugations are U^+ E U and U E U^+, undo each other and keep dot(). Algebra<SU<2>> gives the same matrices, the components in reverse order, but its dot() is half as large.", "quantifier": "all SU2 with real components, all algebra vectors, every N, i, j and matrix for the subgroups", "why_tests_cant": "SU2 is used instead of SU<2> for speed, and inside the updates of SU(N). A wrong sign in one product still gives numbers of the right size.", "anchors": ["libraries/datatypes/su2.h: SU2, Algebra<SU2>, mul_trace, project_from_matrix, right_conjugation, left_conjugation"]}
{"id": "C76", "title": "Exponential and logarithm of SU(2)", "statement": "exp() of an algebra element (a, b, c) is the limit of the exponential series of the matrix (i/2)(a s1 + b s2 + c s3), for every length of the vector including 0, and is in SU(2). Exponentials along one direction multiply: exp((s+t)E) = exp(sE) exp(tE), and exp(-E) is the adjoint of exp(E). exp(log(U)) = U for every U in SU(2) except -1, and log(exp(E)) = E for |E| < 2 pi. Two things do not hold: log(-1) is 0, so that exp(log(-1)) is 1; and exp() of an SU2 that is no multiple of the unit matrix multiplies components that have never been assigned, so that its result depends on what the memory held.", "quantifier": "all algebra elements, all elements of SU(2), all contents of the memory", "why_tests_cant": "The cases at length 0 and at -1 are single points that random tests never meet; memory that has just been cleared can hide the error of SU2::exp, which then gives a multiple of the unit matrix.", "anchors": ["libraries/datatypes/su2.h: Algebra<SU2>::exp, SU2::log, SU2::exp"]}
{"id": "C77", "title": "Overrelaxation by SU(2) subgroups", "statement": "suN_overrelax(U, staple) leaves the link U in SU(N) and does not change Re Tr(U staple^+), for every N, every link of SU(N) and every staple matrix. For SU(2) a second call with the same staple restores the link, and for a staple that is a non-zero sum of SU(2) matrices the new link is S U^+ S / det S. It does not hold that the update is always defined: for SU(3) there are a link and a staple in SU(3) whose action has a zero projection on a subgroup, and normalizing it divides zero by zero.", "quantifier": "all N, all links in SU(N), all staple matrices", "why_tests_cant": "Conservation of the action and unitarity must hold for all matrices; the staples with a zero projection have measure zero and never show up in random tests, but diagonal links with elements 1 and -1 meet them.", "anchors": ["libraries/gauge/sun_overrelax.h: suN_overrelax", "libraries/datatypes/su2.h: project_from_matrix, normalize", "libraries/datatypes/matrix.h: mult_by_2x2_left"]}
{"id": "C78", "title": "Maximising the overlap with a staple", "statement": "suN_max_staple_sum_rot(staple) returns an element U of SU(N) with Re Tr(U staple) not below Re Tr(staple), for every order of the indices the shuffle may produce. For SU(2) it is the element of SU(2) with the largest Re Tr(U staple). suN_overrelax(U, staple, beta) proposes T U^+ T, where T depends on the staple and the shuffle only, which is in SU(N) and for which the same T leads back to U; it is accepted always for SU(2), and otherwise if Re Tr(U staple^+) grows or the random number is below exp(beta/N ds); if not, U stays as it was and 0 is returned. For SU(2) Re Tr(U staple^+) does not change, and the link agrees with that of suN_overrelax(U, staple). It does not hold for SU(3) that the matrix returned has the largest overlap, as the description says: for a multiple (1 + 4i) of the unit matrix it returns the unit matrix, although a cube root of unity times the unit matrix has a larger overlap.", "quantifier": "all N, all staples, all permutations, all random numbers, all tolerances", "why_tests_cant": "That the result is the best over all of SU(N) cannot be seen by sampling, and the reversibility of the proposal is a statement about all links.", "anchors": ["libraries/gauge/sun_max_staple_sum_rot.h: suN_max_staple_sum_rot, suN_overrelax"]}
{"id": "C79", "title": "Heat bath by SU(2) subgroups", "statement": "suN_heatbath(U, staple, beta) leaves the link U in SU(N) for every N, every staple, every beta > 0 and every sequence of random numbers in [0, 1), unless the Kennedy-Pendleton loop of a subgroup ends after forty rejected trials. The value returned is between 1/40 and 1, and if it is above h/(h+39), with h = N(N-1)/2 subgroups, the link is in SU(N). For SU(2) and a staple that is a non-zero sum of SU(2) matrices the new link and the value returned do not depend on the old link, and the link is in SU(2) whatever the random numbers if beta^2 det(staple) <= 4; it is h S / sqrt(det S), where the first component of h is that of the first trial the methods of Kennedy and Pendleton or Creutz accept for beta sqrt(det S), the others lie on a sphere, and one over the number of trials is returned. It does not hold that the link always stays in SU(N): after forty rejected trials the last one is used, whose first component may be below -1, and the link is then not unitary. It does not hold that the update is always defined: for SU(3) a zero projection is divided by its length, and for SU(1) the value returned is 0/0.", "quantifier": "all N, all links in SU(N), all staples, all beta > 0, all sequences of random numbers", "why_tests_cant": "Forty rejections in a row have so small a probability that no test run meets them, and independence of the old link is a statement about all pairs of links.", "anchors": ["libraries/gauge/sun_heatbath.h: suN_heatbath", "libraries/datatypes/su2.h: det, operator*, convert_to_2x2_matrix", "libraries/datatypes/matrix.h: mult_by_2x2_left"]}
{"id": "C80", "title": "Reading parameter files", "statement": "What a program gets from a parameter file depends only on the lines that are left when comments, indentation and blank lines are removed, and every sequence of calls comes to an end, or stops because quotes are not closed. A program that asks for the parameters in the order of the file gets their values: single values, vectors and lists, also lists that go on on the next line. A key that is not the next one in the file fails and has no effect on the following calls. Integers are read exactly, or refused if out of range. A file read to the end can be followed by another one on the same object. It does not hold that only integers are accepted for an integer (3.7 gives 3), that complex numbers can be written as documented (\"(0.4, 0.5)\" always fails, \"( 0.4, 0.5 )\" is read), that quoted strings may contain '#' (the program stops), or that an object can be opened again in general (the rest of the last line is read first).", "quantifier": "all files, all sequences of calls, all types of values", "why_tests_cant": "Files have any layout, and the calls may be interleaved in any way; the parser keeps the position within a line between calls, so that errors show only for particular sequences.", "anchors": ["libraries/plumbing/input.cpp: open, get_line, remove_whitespace, contains_word_list, peek_token, get_token, match_token, handle_key, is_value", "libraries/plumbing/input.h: get_value, is_value"]}
{"id": "C81", "title": "Parameters given on the command line", "statement": "With -p key value on the command line the first call for this key gets the given value instead of the one in the file, a second -p for the same key serves the second call, all other parameters have the values of the file, and closing the file complains exactly if a value was given that was not used. Only the first file of a program is affected. It does not hold that a list going on on the next line can be replaced (the rest of the old list is taken for the next parameter), or that unused values are complained about when no key of the file was found.", "quantifier": "all files, all lists of -p parameters, all sequences of calls in the order of the file", "why_tests_cant": "The values replaced depend on the history of calls and on which parameters were used before.", "anchors": ["libraries/plumbing/input.cpp: scan_cmdline, handle_key, close", "libraries/plumbing/input.h: get_value"]}
{"id": "C82", "title": "Choices in parameter files", "statement": "get_item returns the first of the items that fits the text after the key and fails exactly if none fits; the words of an item are consumed, while the text for which %s, %f or %i stands is left for the next call. It does not hold that %i fits integers only: it is chosen for 1.343 if it comes before %f.", "quantifier": "all files, keys, lists of items, and calls that follow", "why_tests_cant": "The result depends on the order of the items and on which of them are prefixes of each other or of the text.", "anchors": ["libraries/plumbing/input.cpp: get_item, contains_word_list", "libraries/plumbing/input.h: get_item"]}
{"id": "C83", "title": "Time limit of a run", "statement": "A time limit given as d-h:m:s, h:m:s, m:s or s is understood as that number of seconds, and a text that does not begin with a number is refused; a number that is negative or at least 2^32 leaves the limit undefined. time_to_finish() returns true exactly if the signal was received, or if a limit is set and less than the longest interval between two checks plus two minutes are left; so if it returns false and the next check comes within the longest interval so far, at least two minutes are left then. Once it returns true it stays true. Without a limit and a signal it returns false. It does not hold that other texts are refused (2-12 and 2-12:30 are taken for two seconds, 10m for ten), or that a run ends only if a round might not fit in: the time before the first check counts as an interval, so that a program whose first check is after half of the limit ends at once.", "quantifier": "all texts, all sequences of check times and signals", "why_tests_cant": "A test would have to run for the time limit, and the decision depends on the whole history of the intervals.", "anchors": ["libraries/plumbing/timing.cpp: setup_timelimit, time_to_finish", "libraries/plumbing/timing.h: time_to_finish"]}
{"id": "C84", "title": "Arrays of a rank's own sites, boxes and slices", "statement": "copy_local_data() fills an array with the values of the sites of the rank, the first coordinate running fastest, every element from exactly one site; set_local_data() is its inverse, touches nothing else and refuses an array that is too short. After copy_local_data_with_halo() every element of the larger array, faces, edges and corners of the surrounding layer included, is the value of the periodic lattice at the corresponding coordinates if the rank has at least two layers of sites in every direction. This fails if the rank has a single layer in some direction: the elements of the layer above it, and only these, keep whatever the array contained. get_subvolume() and get_slice() return the values of all sites of the range or slice in the same order, and refuse a range that is not in the lattice.", "quantifier": "all lattice sizes, dimensions, divisions and rank numberings, all field contents, all ranks, ranges and slices", "why_tests_cant": "Tests run with a few divisions with large local sizes; the corners of the layer are assembled through chains of neighbours on other ranks.", "anchors": ["libraries/plumbing/field_comm.h: copy_local_data, set_local_data, collect_field_halo_data_, copy_local_data_with_halo, get_subvolume, get_slice, get_range_from_slice", "libraries/plumbing/lattice.h: forcoordinaterange"]}
{"id": "C85", "title": "Plaquette action and its force", "statement": "The plaquette action is the sum over all sites and pairs of directions of 1 - Re Tr(plaquette)/N. The change of the momenta made by its force routine is the gradient of this action: when the links move with velocity E U, the scalar product of E with the change is -2 N eps times the derivative of the action, for the adding and the setting version, whatever the momenta and the temporary fields contained. The energy of the molecular dynamics, measured with the momenta and the action, is constant to first order along the motion that the link and momentum updates generate.", "quantifier": "all sizes of the group, dimensions above one, lattice sizes, link matrices (unitary or not), real momenta, coefficients and previous contents of the temporary fields", "why_tests_cant": "Tests compare the action before and after one trajectory of a random field with a tolerance; a wrong term of the force only lowers the acceptance, and a wrong normalisation shows up as a different step size.", "anchors": ["libraries/gauge/wilson_plaquette_action.h: measure_s_wplaq, get_force_wplaq_add, get_force_wplaq", "applications/suN_hmc/src/suN_hmc.cpp: update_E, measure_e2, measure_action"]}
{"id": "C86", "title": "Lines of links along any path and the force of any loop", "statement": "The line of links along a path of at least two steps, read at the end point of the path, is the product of the links met along the path in order, taken conjugated where the path runs backwards. This fails for a path of one step: the routine reads the path beyond its end. The force routine of a closed path of at least two steps changes the momenta by 2 eps times the gradient of the sum over all starting points of Re Tr of the loop, also where the path visits a link several times; given a field that already contains line times a remainder, it does so for the part of it that moves with the line.", "quantifier": "all paths in all dimensions, self-crossing ones included, all lattice sizes, group sizes, unitary links, real momenta and coefficients", "why_tests_cant": "Paths can retrace and cross themselves and wrap around a small lattice; tests cover a few rectangular loops.", "anchors": ["libraries/gauge/wilson_line_and_force.h: get_wilson_line, get_wloop_force_add, get_wloop_force_from_wl_add"]}
{"id": "C87", "title": "Improved action and its force", "statement": "The improved action is c11 times the sum over plaquettes plus c12 times the sum over all 2 x 1 and 1 x 2 rectangles of 1 - Re Tr(loop)/N. The change of the momenta by its force routine is the gradient of this action in the sense of C85, including c12 = 0, and the energy of the molecular dynamics is constant to first order.", "quantifier": "all coefficients, dimensions above one, lattice sizes, group sizes, unitary links, real momenta and previous contents of the temporary fields", "why_tests_cant": "The rectangle part of the force is assembled from six-step paths and staples that are reused; tests see only the acceptance rate.", "anchors": ["libraries/gauge/improved_action.h: measure_s_impr, get_force_impr_add, get_force_impr"]}
{"id": "C88", "title": "Clover action and its force", "statement": "The clover action is the sum over sites and planes of the squared field strength, the field strength being the traceless antihermitian part of the mean of the four plaquettes that touch the site in the plane. The change of the momenta by its force routine is the gradient of this action in the sense of C85.", "quantifier": "all dimensions, lattice sizes, group sizes, unitary links, real momenta and coefficients", "why_tests_cant": "Every link enters the force through several leaves at different sites, with matrices inserted at their corners; tests see only the acceptance rate.", "anchors": ["libraries/gauge/clover_action.h: get_clover_leaves, measure_s_clover, get_force_clover_add, get_force_clover"]}
{"id": "C89", "title": "Blocking a gauge field", "statement": "After block_gauge() every link of the blocked lattice is the product of the links of the parent lattice along its direction, as many as the blocking factor of that direction, from the parent site of its starting point; block_gauge_to_current_lattice() replaces the field by the same links, and changes nothing on the same lattice. Blocking factors above two are refused. Hence the product of blocked links along any path is the product of the parent links along the path with every step repeated, loops are loops of the parent, and a gauge transformation of the parent is one of the blocked field.", "quantifier": "all lattice sizes, divisions among ranks (ranks without blocked sites included), factors 1 and 2 in each direction, gauge fields, paths and previous contents", "why_tests_cant": "Tests block a few layouts in which every rank keeps sites; long links reach into the halo of the parent lattice.", "anchors": ["libraries/plumbing/gaugefield.h: block_gauge, block_gauge_to_current_lattice"]}
{"id": "C90", "title": "Making the electric field satisfy Gauss' law", "statement": "In up to three dimensions each step of degauss() leaves the total violation of Gauss' law (the sum over sites of the squares of the components of the covariant divergence of E, which does not depend on the gauge) no larger than before, keeps every component of E that is orthogonal to the corrections (the scalar product with any field without divergence), and does not change a field that satisfies Gauss' law. degauss() ends after at most 10001 steps, and if it did not reach this limit the violation per site is at most 9/4 of the wanted quality. It is not always within the quality: the value that is tested belongs to the field before the last correction, and the comment that the real violation is smaller is wrong. In four dimensions a step can increase the violation.", "quantifier": "all lattice sizes in up to three dimensions, SU(N) for every N, unitary gauge fields, electric fields and qualities", "why_tests_cant": "A run shows the convergence for one configuration; that no configuration makes the violation grow, and that the stated quality can be missed, needs the spectrum of the lattice Laplacian for all gauge fields.", "anchors": ["libraries/gauge/degauss.h: degauss, degauss_step, gauss_fix_step, get_gauss_violation"]}
{"id": "C91", "title": "The time evolution keeps Gauss' law", "statement": "In at least two dimensions update_E() and update_U() of the real-time evolution do not change the covariant divergence of the electric field at any site, and the links stay unitary. So along do_trajectory(), for every time step and number of steps, every measured violation of Gauss' law is equal to that of the initial fields, and after degauss() it is at most 9/4 of the wanted quality per site. In one dimension update_E() reads a field that was never assigned.", "quantifier": "all lattice sizes, SU(N) for every N, unitary gauge fields, electric fields, time steps and trajectory lengths; every map in place of exp() that gives unitary matrices that commute with what commutes with its argument", "why_tests_cant": "The conservation is exact at every step size, and a test sees it only up to rounding along single trajectories.", "anchors": ["applications/sun_realtime/src/sun_realtime.cpp: update_E, update_U, do_trajectory", "libraries/gauge/degauss.h: get_gauss_violation"]}
{"id": "C92", "title": "The gradient flow lowers the action", "statement": "For the Wilson, Luescher-Weisz, Iwasaki and DBW2 flows in at least two dimensions: when the links move with get_gf_force() as momenta, measure_gf_s() changes at the rate -|F|^2 / 2N, where |F|^2 is the sum of the squares of the components of the force; so it decreases strictly unless the force is zero everywhere. For the Zeuthen flow it decreases at least at 2/3 of the rate of the Luescher-Weisz flow. The components of every force are real numbers. The forces of the first four flows follow gauge transformations. That of the Zeuthen flow does not: whenever the Luescher-Weisz force of some link is not zero there is a gauge transformation in SU(N) after which the Zeuthen force is not the transformed one.", "quantifier": "all lattice sizes in two or more dimensions, SU(N) for every N, unitary gauge fields, differentiable motions of the links, gauge transformations and initial contents of the work fields", "why_tests_cant": "A run can only show that the printed action decreases for some configurations and steps; covariance has to hold for all gauge transformations and a wrong covariant derivative is invisible on smooth fields.", "anchors": ["libraries/gauge/gradient_flow.h: get_gf_force, measure_gf_s, get_zeuthen_flow_force"]}
{"id": "C93", "title": "Energy, its change and topological charge along the flow", "statement": "measure_dE_wplaq_dt() is the derivative, along the flow with the chosen action, of the lattice volume times the printed plaquette energy density, and measure_dE_clov_dt() that of 2N times the clover action. In four dimensions measure_topo_charge_and_energy_clover() gives the topological charge, (1/32 pi^2) times the sum over sites and over all i, j, k, l of epsilon(i,j,k,l) Re Tr F_ij F_kl, and the energy, the sum of |F_ij|^2 over sites and pairs of directions, for the clover field strength F; the energy is 2N times the clover action. Both do not depend on the gauge, nor on the previous contents of the work fields. In another number of dimensions both values are 0 for every field.", "quantifier": "all lattice sizes, SU(N) for every N, unitary gauge fields, the five flows that are modelled, gauge transformations", "why_tests_cant": "Normalisation, sign and orientation of six field strength components computed by a transport scheme are right for all fields or only on special ones such as constant fields; tests compare few configurations.", "anchors": ["libraries/gauge/gradient_flow.h: measure_dE_wplaq_dt, measure_dE_clov_dt, measure_gradient_flow_stuff", "libraries/gauge/energy_and_topo_charge_clover.h: measure_topo_charge_and_energy_clover"]}
{"id": "C94", "title": "The adaptive integration of the gradient flow reaches its end time in accurate steps, in every gauge alike", "statement": "When do_gradient_flow_adapt(V, l_start, l_end, atol, rtol, tstep) returns, V has been taken from flow time l_start^2/8 exactly to l_end^2/8 by at least two steps of the three-stage Runge-Kutta method of arXiv:1006.4518, each positive, not longer than half of the way, and such that on every link the method and the embedded two-stage one agree within the wanted accuracy; after each step the links are reunitarized. The returned step size is positive and not longer than half of the way. If l_end^2 <= l_start^2 the field and the step size are unchanged. Links in SU(N) stay in SU(N). If the starting field is replaced by a gauge transform of it, the function takes the same steps, returns the same step size, and its result is the gauge transform of the first result (all flow actions but Zeuthen). On commuting links the steps agree with the solution of the flow equation up to the third power of the step size, and the embedded method up to the second.", "quantifier": "all starting fields, forces, tolerances, starting step sizes >= 0, flow scales and numbers of steps; for covariance all gauge transformations in SU(N) and lattices in two or more dimensions; for the order all polynomial forces", "why_tests_cant": "Step rejection restores the field from a copy and recomputes the last, shortened step; a mistake there shows only for tolerances at which a step near the end is rejected. Coefficients that are slightly wrong still give a plausible flow.", "anchors": ["libraries/gauge/gradient_flow.h: do_gradient_flow_adapt"]}
{"id": "C95", "title": "Stout smearing multiplies every link by the exponential of its plaquettes, in every gauge alike", "statement": "stout_smear(U, stout, coeff, iter) with iter >= 0 leaves in stout the field U smeared iter times, where one smearing replaces every link U_d(x) by exp(-coeff P) U_d(x) with P the antihermitean traceless part of the sum of all plaquettes that begin with this link; earlier contents of stout and of scratch fields do not matter, and every step uses only the links of the field before it. For negative iter it copies U if iter is even and smears once if iter is odd. The form with lists fills stoutlist[i] with the field smeared i times and staplist[i] with the sums of staples of stoutlist[i]; it needs at least one field in stoutlist and at least stoutlist.size() - 1 in staplist. get_stout_staples puts each of the 2(NDIM-1) staples of every link in its own place, the upper ones first and the lower ones in reverse order, and their sum equals that of staplesums. Links in SU(N) stay in SU(N), and smearing a gauge transformed field gives the gauge transform of the smeared field. The derivative of the plaquette action with respect to coeff at 0 is minus the sum over links of the squared length of P, over N.", "quantifier": "all gauge fields, real coefficients, numbers of iterations, contents of the fields for results, lattices and numbers of dimensions (for the staples and the action two or more), all SU(N); for covariance all gauge transformations in SU(N)", "why_tests_cant": "The two fields for results change roles at every step, and the staples are gathered from both sides of each link while they are written into the field for the result; a staple that is missed, counted twice or taken from a neighbour still smooths the field.", "anchors": ["libraries/gauge/stout_smear.h: staplesums, stout_smear1, stout_smear, get_stout_staples"]}
{"id": "C96", "title": "The force under stout smearing is the gradient with respect to the links before smearing", "statement": "stout_smear_force(stoutlist, staplist, K, KS, coeff), given the lists that stout_smear filled from a gauge field U with m smearing steps and a force K that is c times the gradient of some function S of the gauge field at the smeared field stoutlist[m], returns in KS c times the gradient at U of S as a function of the field before smearing: however the links move away from U, the scalar product of their velocity with KS is c times the rate of change of S of the smeared field. The previous contents of KS do not matter. In particular the force of the plaquette action at the smeared field is turned into the force of the plaquette action of the smeared field. With fewer than stoutlist.size() - 1 fields of staples there is an access out of range.", "quantifier": "all gauge fields, functions S of the gauge field, forces K that are a multiple of their gradient, real coefficients, numbers of smearing steps, contents of the fields for results, motions of the links with velocities in the Lie algebra, lattices and numbers of dimensions, all SU(N)", "why_tests_cant": "Every link enters the staples of 6 (NDIM-1) links, each with its own sign, order and shift; one term with a wrong sign or taken from a neighbour leaves a force of the right size, and HMC only accepts less often.", "anchors": ["libraries/gauge/stout_smear.h: stout_smear_force, stout_smear"]}
{"id": "C97", "title": "With stout smearing HMC conserves the energy of the smeared action to first order", "statement": "stout_smeark(U, stoutlist, staplist, stoutklist, coeff) stores in stoutlist[i] the field U smeared i times, and stout_smeark_force, given these lists and a force K that is c times the gradient of a function S at the last field, returns c times the gradient at U of S as a function of the field before smearing, for U in SU(N). In HMC with STOUTSTEPS > 0, update_E changes the momenta by the force of the action of the smeared field that measure_s measures: if the links move with the velocity of the momenta and the momenta with the velocity given by update_E, the total energy is constant to first order, for the Wilson plaquette action and for the improved actions. The contents of newly made fields do not matter.", "quantifier": "all SU(N) gauge fields, real momenta, real smearing coefficients, numbers of smearing steps, couplings and weights of the improved action, motions of links and momenta, contents of new fields, lattices of at least two dimensions, all SU(N)", "why_tests_cant": "measure_s and update_E smear by different functions, one that keeps two fields and one that keeps all; if they differ in one coefficient or one step the run still looks right and only the acceptance rate falls.", "anchors": ["libraries/gauge/stout_smear.h: stout_smear1k, stout_smeark, stout_smeark_force", "applications/suN_hmc/src/suN_hmc.cpp: measure_s, update_E"]}
{"id": "C98", "title": "The running site index names every lattice site once", "statement": "SiteIndex(cv) of a valid lattice coordinate is x + nx (y + ny (z + nz t)), a number less than the number of sites, and its coordinates() returns cv; every number v less than the number of sites is the index of exactly one site, the one that SiteIndex(v).coordinates() returns. This needs a number of sites that a size_t holds; the sizes of the directions are ints.", "quantifier": "all numbers of dimensions, all lattice sizes with a volume that fits into a size_t, all sites and all indices", "why_tests_cant": "Lists of selected sites and labels of clusters keep these indices only; on a lattice with different sizes in different directions, or with more than 2^31 sites, a wrong radix or a product computed in int would merge sites, and tests use small lattices.", "anchors": ["libraries/plumbing/site_index.h: SiteIndex, coordinates"]}
{"id": "C99", "title": "Complex numbers compute as complex numbers, also when an argument is the number that is assigned to", "statement": "In exact arithmetic +, -, *, / of Complex numbers and of a Complex and a real number, the conjugate, conj_mul, mul_conj, squarenorm, abs, == and the product with an imaginary number give the values of the complex numbers re + i im; a division has a result if and only if the divisor is not zero. The same holds for +=, -=, *= and /=, also for an argument that is the number itself or one of its parts, with one exception: z /= z.real() (or z.re) leaves the imaginary part undivided, so that it is wrong unless the imaginary part is 0 or the real part is 1.", "quantifier": "all complex numbers, all real numbers, and all arguments by reference, including those that alias the number that is assigned to", "why_tests_cant": "All matrix and gauge field code is built on this class; a sign or a part that is overwritten before it is read shows only for numbers with both parts nonzero, and an aliased argument only in code that passes one.", "anchors": ["libraries/datatypes/cmplx.h: Complex, operator+=, operator-=, operator*=, operator/=, operator+, operator-, operator*, operator/, conj, conj_mul, mul_conj, squarenorm, abs, operator==, Imaginary_t"]}
{"id": "C54", "title": "Template parameters are replaced as names only", "statement": "When the preprocessor specialises a function it replaces in its text the names of template parameters by their arguments: every identifier that is one of the names becomes the text beside the first such name in the list, and all other text, in the range and outside it, is unchanged: longer identifiers, comments, preprocessor lines, strings and character constants; the return value is the number of replacements. This holds for text whose numbers contain no letters and whose comments do not begin with a slash; in 2.0f the letter f is replaced like a name, and a comment that begins with a slash is taken as closed.", "quantifier": "all program texts (sequences of lexical items of any length) in a range of any buffer, all lists of names and replacements", "why_tests_cant": "The text is the user's program; which combinations of quotes, escapes, comments and names occur is not bounded, and a wrong replacement in a string or a number compiles and runs.", "anchors": ["hilapp/src/srcbuf.cpp: srcBuf::replace_tokens", "hilapp/src/toplevelvisitor.cpp: funcBuf.replace_tokens"]}
