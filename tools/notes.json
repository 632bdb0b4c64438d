{
 "C01": {
  "status": "proved",
  "note": "All 64-bit words, portable code paths (SSE/BMI builtins not modelled). cnt32 is refuted for 0xFFFFFFFF and proved outside the failing masks."
 },
 "C02": {
  "status": "proved",
  "note": "Whole word streams with carry; cnt11 is greedy non-overlapping matching."
 },
 "C03": {
  "status": "proved",
  "note": "Every memory, offset 0..63, length 0..64; also read_unary, move_left/right, next, prev."
 },
 "C04": {
  "status": "proved",
  "note": "Any history of writes, ++, --, +=, -=, swap, resize; get_int/set_int at any bit position; int_vector<8/16/32/64> typed access; bit_vector access; constructor; copy, assign, swap."
 },
 "C05": {
  "status": "partial",
  "note": "Resizing keeps contents (all histories). The padding word claim is refuted: 60 bits resized to 64 bits has no padding word; it is proved after construction and after every resize that changes the word count."
 },
 "C06": {
  "status": "proved",
  "note": "Any block size, any following bytes, any target vector; also fixed width written as variable width. Bit size below 2^64."
 },
 "C07": {
  "status": "partial",
  "note": "operator== is refuted against the documentation (it ignores the width); exact bit-level characterisation proved, and equality of elements for equal widths. <, >, <=, >= are the lexicographic order."
 },
 "C08": {
  "status": "proved",
  "note": "Signed offsets, all widths 1..64. Pointer overflow beyond the allocation is not modelled (word index is an integer)."
 },
 "C09": {
  "status": "partial",
  "note": "Proved for int_vector<0>. Refuted for fixed-width vectors, whose contents are destroyed because width(x) is a no-op there."
 },
 "C10": {
  "status": "proved",
  "note": "For 64-bit vectors set_to_value evaluates k >> 64 (undefined behaviour, refuted in the strict reading); the result is unused and the theorem holds for every outcome of that shift."
 },
 "C11": {
  "status": "partial",
  "note": "Counting and prev_bit proved for any padding contents; next_bit proved when a set bit exists or the unused bits of the last word are 0, refuted otherwise (shrinking resize leaves stale bits)."
 },
 "C52": {
  "status": "proved",
  "note": "flip, &=, |=, ^= for vectors of equal bit size (the code throws otherwise; modelled as failure)."
 },
 "C12": {
  "status": "proved",
  "note": "All six patterns, every vector whose capacity is below 2^64 bits, every position up to size()."
 },
 "C13": {
  "status": "partial",
  "note": "All patterns and positions for vectors with the padding word (every constructor), and all positions < size() for every vector. Refuted for rank(size()) after resizing 60 to 64 bits: it reads past the buffer."
 },
 "C14": {
  "status": "partial",
  "note": "As C13."
 },
 "C15": {
  "status": "proved",
  "note": "All six patterns, init_slow and init_fast (also init_fast on its own for the one-bit patterns), any contents of the uninitialised arg_position buffer. Allocated bits below 2^64."
 },
 "C16": {
  "status": "proved",
  "note": "All patterns (superset of those the class supports)."
 },
 "C51": {
  "status": "proved",
  "note": "Stated for rank_support_v and select_support_mcl; the other structures are proved equal to the same rank/select specification."
 },
 "C17": {
  "status": "proved",
  "note": "All three constructors (bit_vector, strictly increasing positions, builder) and access. Findings as _refuted: repeated positions pass the is_sorted check but are undefined behaviour."
 },
 "C18": {
  "status": "proved",
  "note": "Both bit values, every prefix. Finding as _refuted: sd_vector over an empty range has undefined rank(0)."
 },
 "C19": {
  "status": "proved",
  "note": "select_support_sd<1>, <0> and select_0_support_sd including the construction of its sample table."
 },
 "C20": {
  "status": "proved",
  "note": "Every idx and len 1..64; the result is given bit by bit."
 },
 "C23": {
  "status": "partial",
  "note": "Any sequence at any bit offset of any memory: code positions, untouched neighbours, decode, running sums, table-driven prefix sum; vector encode/decode. Two findings restrict it, both as _refuted: a 64-bit zero evaluates 1ULL<<64 on decode, and decode_prefix_sum reads the word behind an exactly allocated vector."
 },
 "C24": {
  "status": "partial",
  "note": "As C23 for elias_delta with its own tables and nested length code."
 },
 "C26": {
  "status": "proved",
  "note": "All digit widths for which the class's (1<<t_width)-1 is a defined int expression (2..30); widths 31 and 32 overflow a signed int in the source."
 },
 "C27": {
  "status": "partial",
  "note": "Both constructors, gamma/delta/comma coders, every density and input. Restrictions with _refuted counterparts: the Elias coders read one word behind the encoded data (decode_prefix_sum), equal neighbours need 1ULL<<64 to be defined, and a container of uint32_t must be nondecreasing. Fibonacci coder not covered (C25)."
 },
 "C28": {
  "status": "proved",
  "note": "All inputs (64-bit or 32-bit element type) for gamma, delta and comma; the largest value of the type throws logic_error. The Fibonacci coder is not covered (C25)."
 },
 "C21": {
  "status": "proved",
  "note": "All block sizes n; the numbers are unbounded integers in the model, and C21_table_fits shows that they fit the 64/128/256-bit number types. uint128/uint256 arithmetic itself is C49."
 },
 "C22": {
  "status": "proved",
  "note": "Generic rrr_vector<t_bs, int_vector<>, t_k> for 3<=t_bs<=256 and every t_k>=2. The specialisation for t_bs=15 is a separate class and is not covered here."
 },
 "C36": {
  "status": "partial",
  "note": "sorted_stack_support and sorted_int_stack are proved for every history. For sorted_multi_stack_support the full statement is false: more than 64*(n/64+1) elements (possible with duplicates) index behind m_duplication_stack (C36_multi_refuted); proved as long as the count stays below that. swap, copy and serialize of the stacks are not modelled."
 },
 "C38": {
  "status": "proved",
  "note": "For every permutation and every t_s >= 1, with the bound 2*t_s+2 on the reads of the permutation. The rank support of the marked bit vector is rank_of (proved for the supports in C12-C14). For t_s = 0 nothing is claimed. Copy, swap, load and serialize are not modelled."
 },
 "C37": {
  "status": "proved",
  "note": "Every history of assignments and set_zero_bits for every n > 0. next and prev can evaluate a shift by 64 (or by 63-255) whose result is then ignored: C37_history holds for every result of that shift, C37_shift_refuted shows that legal calls reach it (undefined behaviour read strictly)."
 },
 "C35": {
  "status": "partial",
  "note": "New buffers, plain files and files of vectors with clean unused bits: every history is a growing list and close() writes exactly the serialized vector. C35_open_refuted: when an existing file was stored from a vector with set unused bits (for example int_vector<8>(1,255)), a write behind the end can expose them as nonzero new elements. Streams are modelled as never failing; iterator operator- (returns a reference to a local) is not modelled."
 },
 "C30": {
  "status": "partial",
  "note": "Complete for symbols below 2^63 (any max_level up to 63); a symbol of 64 bits makes the constructor shift by 64, proved as C30_wide_symbol_refuted. The bit vector, rank and select below are the abstractions proved in C04-C16."
 },
 "C31": {
  "status": "proved",
  "note": "wt_int: lex_count, lex_smaller_count, interval_symbols; wm_int: interval_symbols; both: quantile_freq."
 },
 "C32": {
  "status": "partial",
  "note": "wt_int and wm_int, every rectangle except vlb = 2^max_level, where the answer is wrong (C32_clip_refuted, C32_wm_clip_refuted); symbols below 2^63."
 },
 "C33": {
  "status": "partial",
  "note": "Complete for access, select, inverse_select and construction, 64-bit symbols included; rank for symbols below 2^63, since with 64 levels it shifts by 64 (C33_rank_wide_refuted)."
 },
 "C53": {
  "status": "partial",
  "note": "wt_int and wm_int. symbol_lte, symbol_gte and restricted_unique_range_values need max_level <= 63: with 64 levels they shift by 64 (C53_wide_refuted). intersect is complete."
 },
 "C48": {
  "status": "partial",
  "note": "bit_vector_il with every block size t_bs >= 64, its [] and get_int, rank_support_il<0/1> and select_support_il<0/1> (binary search with the sample cache) are proved for every bit_vector that has its padding word. Missing: a bit_vector whose padding word is not allocated, where C48_after_resize_refuted shows the constructor reading past the allocation."
 },
 "C49": {
  "status": "partial",
  "note": "Every operator of the portable uint128_t class and of uint256_t (over the portable class and over the compiler's 128-bit type) is proved equal to arithmetic modulo 2^128 / 2^256, including popcount, hi, select and printing. Missing: uint256_t << 0 over the compiler's type, which C49_u256_shl_refuted shows shifts a 128-bit number by 128 (undefined)."
 },
 "C29": {
  "status": "proved",
  "note": "dac_vector<b> for every b in 1..63 and every container of 64-bit values; dac_vector_dp for every cost function and for every covering plan. The cost arithmetic (double) is abstract; iterators and serialisation are not modelled."
 },
 "C39": {
  "status": "partial",
  "note": "Proved for every history of alloc/free/realloc/writes with request sizes below 2^62 and not 1 mod 8: disjointness, bounds, no undefined behaviour, contents preserved, coalescing and reuse. Sizes 1 mod 8, sizes near 2^64 and the overlapping memcpy in realloc are refuted by the C39_*_refuted theorems."
 },
 "C50": {
  "status": "partial",
  "note": "Proved for every history whose renames have an existing source different from the target, and for every sequence of writes and absolute seeks. rename(x,x), rename of a missing file, append mode and relative seeks are refuted."
 },
 "C45": {
  "status": "partial",
  "note": "rmq_support_sparse_table: leftmost extremal position for every container and range, except a two-element container in the wrong order, for which the constructor writes out of bounds (refuted). rmq_succinct_sct and rmq_succinct_sada (minimum and maximum, construction of the parentheses and query): leftmost extremal position for every non-empty array and range."
 },
 "C44": {
  "status": "partial",
  "note": "bp_support_sada (constructor, fwd_excess, bwd_excess, find_close, find_open, enclose, excess, level_anc, rmq, rmq_open, rr_enclose, double_enclose) for every sequence, every block size that is a multiple of 8 and every t_med_deg >= 2 (find_close: >= 1), including the min-max tree. Refuted: t_med_deg = 1, block sizes that are not multiples of 8, level_anc(0,0), unmatched parentheses. Not covered: bp_support_g, bp_support_gg."
 },
 "C40": {
  "status": "partial",
  "note": "For every text, suffix array, index type (csa_wt, csa_sada, csa_bitcompressed), sampling and alphabet: count, locate, backward_search and forward_search agree with the occurrences. Missing because false: patterns with an interior 0 (refuted), csa_sada with fuzzy ISA sampling and the bwt sampling (see C42)."
 },
 "C41": {
  "status": "partial",
  "note": "lf/psi, bwt access, rank_bwt and select_bwt of the three index types and all alphabets. Missing because false: csa_sada with fuzzy ISA sampling, bwt sampling (refuted under C42)."
 },
 "C42": {
  "status": "partial",
  "note": "sa, isa, text, extract for SA order, text order and fuzzy sampling at all densities. Missing because false: bwt sampling and csa_sada with the fuzzy ISA support (both refuted)."
 },
 "C54": {
  "status": "proved",
  "note": "All three alphabet strategies."
 },
 "C34": {
  "status": "partial",
  "note": "Proved for the Huffman and balanced shapes, byte and int tree strategies, breadth-first layout (the default): construction is defined for every non-empty sequence and throws only when a code exceeds 56 bits; access, inverse_select, rank (all symbols), select, interval_symbols, and for the balanced shape lex_count and lex_smaller_count. Missing: Hu-Tucker shape, depth-first layout (its order queries are refuted), int symbols >= 2^56 for the order queries."
 },
 "C46": {
  "status": "proved",
  "note": "For every tree without unary inner nodes (the trees of suffix trees): construction, nodes, root, child, parent, degree, is_leaf and id."
 },
 "C43": {
  "status": "proved",
  "note": "Three algorithms, all texts ended by their only 0, suffix array width at least log2 of the text length. construct_lcp_go, goPHI, bwt_based and bwt_based2 are not modelled."
 },
 "C55": {
  "status": "proved",
  "note": "lcp_wt: when its Huffman tree can be built (at most 57 distinct small values always suffice; otherwise the constructor may throw because a code is longer than 56 bits)."
 },
 "C47": {
  "status": "proved",
  "note": "k2_tree: both constructors, adj, neigh, reverse_neigh, range; range on an empty relation refuted"
 },
 "C56": {
  "status": "proved",
  "note": "k2_treap<k> for every k >= 2, every point set with distinct coordinates that has a point other than the origin (or is empty), every std::partition behaviour, coordinates below k^h with k^h representable in 64 bits and in the coordinate type. Both excluded cases are shown to fail by C56_origin_refuted, C56_narrow_refuted and C56_duplicates_refuted."
 },
 "C25": {
  "status": "partial",
  "note": "All values, offsets and sequences the encoder can handle: fib_encodable excludes exactly the values for which encode shifts by a negative distance (refuted for 44945570212853; everything smaller is fine). decode_prefix_sum for fewer than 2^31 bits (int32_t). decode1 is not modelled."
 },
 "C57": {
  "status": "partial",
  "note": "Every text, suffix arrays of the text and of the backward text, alphabet strategy, matching pair of intervals and pattern without 0: both directions return the two intervals of the extended pattern and its number of occurrences. Missing because false: pattern symbols >= 256 on integer alphabets (C57_wide_symbol_refuted)."
 },
 "C58": {
  "status": "proved",
  "note": "cst_sct3 navigation over the intervals of the LCP array. The alphabet size given to the tree is the number of zeros of the LCP array. Operations that read the text: C59."
 },
 "C59": {
  "status": "partial",
  "note": "Labels, child, edge and suffix links are proved in full for all admitted suffix arrays (kind_ok). C59_wl_partial excludes the symbol 0, for which the claim is false (C59_wl_zero_refuted)."
 },
 "C60": {
  "status": "proved",
  "note": "All queries for all sequences. Rank/select on bl and bf and the wavelet tree over the run heads are the abstractions proved in C12-C18 and C30-C34."
 },
 "C61": {
  "status": "partial",
  "note": "Bottom up and breadth first are proved in full. Depth first and skip_subtree need at least two rows (false for one row, C61_dfs_single_refuted) and at most 2^32 rows because of the 32 bit stack size."
 },
 "C62": {
  "status": "proved",
  "note": "Constructor and queries for all sequences; 8-bit classes shown sufficient for 64-bit symbols. Inner wavelet trees enter through their proved answers (C30-C34)."
 },
 "C63": {
  "status": "proved",
  "note": "Constructor (with the int_vector widths) and queries for all sequences. Select answers of B enter through C14-C18."
 },
 "C64": {
  "status": "proved",
  "note": "every chunk size, every permutation per chunk; fuel = the 2*t_s+2 reads claimed"
 },
 "C65": {
  "status": "proved",
  "note": "symbols below 2^63, because 1ULL << (hi+1) is undefined above; std::lower_bound by contract; the copy constructor (section 6 of DESIGN.md) is not modelled"
 },
 "C66": {
  "status": "partial",
  "note": "Proved for 22 classes without restriction. wt_gmr: refuted for histories with copy construction (the copy keeps the original's m_ips pointer), proved for all others. csa_wt/csa_sada with a pointer keeping ISA strategy: refuted for histories with moves, proved for all others; proved without restriction for the default isa_sampling. Member contents are abstract values, load() and iterators are not modelled."
 },
 "C67": {
  "status": "partial",
  "note": "Theorems for 21 classes without restriction; wt_gmr is proved for histories without copy construction and csa_wt/csa_sada with a pointer keeping inverse sampling for histories without moves, because C66 refutes those members; serialize and load themselves are right for all of them. dac_vector_dp, whose load recomputes m_size, is not covered."
 },
 "C68": {
  "status": "partial",
  "note": "select_support_mcl is proved for every history. For the depth first iterator the property is false (copies of begin() share the owned cache) and proved for iterators without a cache; std::swap of iterators is not modelled. Other classes with raw memory (int_vector) are not in this model."
 },
 "C69": {
  "status": "proved",
  "note": "memory_manager::resize/clear and the special members of int_vector over a heap of word lists; hugepages and allocation failure are not modelled; entries after resize are C05"
 },
 "C70": {
  "status": "partial",
  "note": "usage, ended events and bounds of peak() are proved for histories that do not start or stop the monitor inside an event scope (inside one the code is undefined: C70_open_event_refuted). peak() = largest usage is false in general (C70_peak_refuted) and proved for changes further apart than the granularity. One thread; the writers of the log are not modelled."
 },
 "C71": {
  "status": "proved",
  "note": "for record after start and for any code that runs entirely between lock and unlock; sequentially consistent steps. start, stop, event() and the allocator itself touch shared state outside the lock and are not covered"
 },
 "C72": {
  "status": "partial",
  "note": "proved for one thread per process and name parts that do not start with a digit and contain no slash; refuted for other name parts (C72_digit_part_refuted) and for two threads (C72_threads_refuted). dirname is an argument"
 },
 "C73": {
  "status": "partial",
  "note": "proved for histories without add_type_hash and keys without a slash, starting with no files; with add_type_hash both parts are refuted (C73_type_hash_refuted, C73_type_hash_leftover_refuted). Successful writes are assumed"
 }
}