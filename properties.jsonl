{"id": "C01", "title": "Word-parallel bit tricks equal their mathematical definition", "statement": "For every 64-bit word x: bits::cnt(x) is the number of one bits; bits::lo(x)/bits::hi(x) is the index of the lowest/highest one bit (0 for x=0); bits::sel(x,i) is the position of the i-th one bit for 1<=i<=cnt(x); bits::rev(x) is the mirrored word.", "quantifier": "every 64-bit word and every valid select argument", "why_tests_cant": "2^64 words cannot be enumerated; tests sample", "anchors": ["include/sdsl/bits.hpp:cnt", "include/sdsl/bits.hpp:sel", "include/sdsl/bits.hpp:hi", "include/sdsl/bits.hpp:lo", "include/sdsl/bits.hpp:rev"]}
{"id": "C02", "title": "Two-bit pattern counting with carry", "statement": "Counting the patterns 10, 01 and the greedy non-overlapping pattern 11 word by word with a carry gives the same total as counting them in the whole bit string, and sel11/hi11 name the position where an occurrence ends.", "quantifier": "every word stream and every carry", "why_tests_cant": "unbounded streams; boundary between words is where errors hide", "anchors": ["include/sdsl/bits.hpp:cnt11", "include/sdsl/bits.hpp:cnt10", "include/sdsl/bits.hpp:cnt01", "include/sdsl/bits.hpp:map10", "include/sdsl/bits.hpp:map01", "include/sdsl/bits.hpp:sel11", "include/sdsl/bits.hpp:hi11"]}
{"id": "C03", "title": "Bit-field read/write on word memory", "statement": "bits::write_int(p,x,offset,len) changes exactly the len bits starting at offset to the low len bits of x and no other bit of memory; bits::read_int returns exactly those bits; the _and_move variants do the same and advance the (word,offset) cursor by len bits; no word outside the field is touched.", "quantifier": "every memory, position, offset in 0..63, length in 0..64 and value", "why_tests_cant": "all offsets x lengths x memories x neighbouring contents", "anchors": ["include/sdsl/bits.hpp:write_int", "include/sdsl/bits.hpp:read_int", "include/sdsl/bits.hpp:write_int_and_move", "include/sdsl/bits.hpp:read_int_and_move", "include/sdsl/bits.hpp:read_unary_and_move", "include/sdsl/bits.hpp:move_right", "include/sdsl/bits.hpp:move_left"]}
{"id": "C04", "title": "int_vector behaves as an array of w-bit unsigned integers", "statement": "After any sequence of element assignments v[i]=x, reading v[i] returns the last value written to i modulo 2^width and every other element is unchanged; set_int/get_int agree with this on arbitrary bit positions.", "quantifier": "every width 1..64, every size, every history of reads and writes", "why_tests_cant": "unbounded histories and sizes", "anchors": ["include/sdsl/int_vector.hpp:int_vector::get_int", "include/sdsl/int_vector.hpp:int_vector::set_int", "include/sdsl/int_vector.hpp:int_vector::operator[]", "include/sdsl/int_vector.hpp:int_vector_reference"]}
{"id": "C05", "title": "Resizing keeps contents and keeps one accessible padding word", "statement": "resize/bit_resize keep every element with index below min(old,new) size; after construction the word containing bit position size() is always accessible (support structures read it).", "quantifier": "every history of resizes", "why_tests_cant": "depends on the history of sizes", "anchors": ["include/sdsl/memory_management.hpp:memory_manager::resize", "include/sdsl/int_vector.hpp:int_vector::resize", "include/sdsl/int_vector.hpp:int_vector::bit_resize"]}
{"id": "C06", "title": "int_vector serialize/load round trip", "statement": "Loading the bytes written by serialize into any int_vector of the same type gives a vector with the same size, width and elements, consumes exactly the bytes written, and the number returned by serialize equals the number of bytes written.", "quantifier": "every vector, and every byte string following it in the stream", "why_tests_cant": "all contents and sizes (the code has a block loop)", "anchors": ["include/sdsl/int_vector.hpp:int_vector::serialize", "include/sdsl/int_vector.hpp:int_vector::load", "include/sdsl/int_vector.hpp:int_vector::write_header", "include/sdsl/int_vector.hpp:int_vector::read_header"]}
{"id": "C07", "title": "int_vector comparison operators", "statement": "operator== is true exactly when the two vectors have equal size, equal width and equal elements (documentation); operator< is the lexicographic order on the element sequences and is a strict total order compatible with ==.", "quantifier": "all pairs of vectors", "why_tests_cant": "all pairs, including different stale padding bits", "anchors": ["include/sdsl/int_vector.hpp:int_vector::operator==", "include/sdsl/int_vector.hpp:int_vector::operator<"]}
{"id": "C08", "title": "int_vector iterators form a random access iterator", "statement": "begin()+i designates element i; (it+i)-i = it; (it+i)-it = i; ++/-- are +1/-1; comparisons agree with index comparisons.", "quantifier": "all widths, all positions, all signed offsets", "why_tests_cant": "all widths x all offsets; carry of the bit offset across words", "anchors": ["include/sdsl/int_vector.hpp:int_vector_iterator", "include/sdsl/int_vector.hpp:int_vector_const_iterator"]}
{"id": "C09", "title": "Width changing utilities preserve the sequence", "statement": "util::bit_compress and util::expand_width, which move the elements in place, leave size and every element value unchanged; bit_compress picks the smallest width that holds the maximum.", "quantifier": "all vectors, all old/new widths", "why_tests_cant": "overlapping in-place moves: every width pair and size behaves differently", "anchors": ["include/sdsl/util.hpp:bit_compress", "include/sdsl/util.hpp:expand_width"]}
{"id": "C10", "title": "Filling utilities", "statement": "util::set_to_value(v,k) makes every element equal to k mod 2^width; util::set_to_id makes element i equal i mod 2^width.", "quantifier": "all sizes, widths and values", "why_tests_cant": "word pattern tricks depend on lcm(width,64)", "anchors": ["include/sdsl/util.hpp:set_to_value", "include/sdsl/util.hpp:set_to_id", "include/sdsl/util.hpp:_set_zero_bits", "include/sdsl/util.hpp:_set_one_bits"]}
{"id": "C11", "title": "Bit scanning utilities", "statement": "util::cnt_one_bits, cnt_onezero_bits, cnt_zeroone_bits count the bits/patterns of the vector only (padding ignored); next_bit(v,i) returns the first set position >= i or size() if none; prev_bit(v,i) returns the last set position <= i or size() if none.", "quantifier": "all vectors including arbitrary contents of padding bits", "why_tests_cant": "padding contents depend on history", "anchors": ["include/sdsl/util.hpp:cnt_one_bits", "include/sdsl/util.hpp:cnt_onezero_bits", "include/sdsl/util.hpp:cnt_zeroone_bits", "include/sdsl/util.hpp:next_bit", "include/sdsl/util.hpp:prev_bit"]}
{"id": "C12", "title": "rank_support_v is rank", "statement": "rank_support_v<t_b,t_pat_len>(&b).rank(i) is the number of occurrences of the pattern ending in b[0..i-1], for every i in [0..size()], for patterns 0,1,10,01,00,11.", "quantifier": "every bit vector, every prefix, every pattern", "why_tests_cant": "packed 9-bit relative counters at every alignment", "anchors": ["include/sdsl/rank_support_v.hpp:rank_support_v", "include/sdsl/rank_support.hpp:rank_support_trait"]}
{"id": "C13", "title": "rank_support_v5 is rank", "statement": "Same as C12 for rank_support_v5 (2048-bit superblocks, 12-bit relative counters).", "quantifier": "every bit vector, every prefix, every pattern", "why_tests_cant": "packed counters at every alignment", "anchors": ["include/sdsl/rank_support_v5.hpp:rank_support_v5", "include/sdsl/rank_support.hpp:rank_support_trait"]}
{"id": "C14", "title": "rank_support_scan is rank", "statement": "Same as C12 for the scanning rank structure.", "quantifier": "every bit vector, every prefix, every pattern", "why_tests_cant": "unbounded scan", "anchors": ["include/sdsl/rank_support_scan.hpp:rank_support_scan"]}
{"id": "C15", "title": "select_support_mcl is select", "statement": "select_support_mcl<t_b,t_pat_len>(&b).select(i) is the position (of the last bit) of the i-th occurrence of the pattern for every 1<=i<=number of occurrences.", "quantifier": "every bit vector, every argument, every pattern", "why_tests_cant": "three-level sampling with data dependent long/short blocks; the fast constructor only runs above 100000 bits", "anchors": ["include/sdsl/select_support_mcl.hpp:select_support_mcl", "include/sdsl/select_support.hpp:select_support_trait"]}
{"id": "C16", "title": "select_support_scan is select", "statement": "Same as C15 for the scanning select structure.", "quantifier": "every bit vector, every argument, every pattern", "why_tests_cant": "unbounded scan", "anchors": ["include/sdsl/select_support_scan.hpp:select_support_scan"]}
{"id": "C17", "title": "sd_vector is a lossless compression of a bit vector", "statement": "sd_vector(bv)[i] = bv[i] for all i<size, and size() is kept; likewise when built from a sorted list of positions or through sd_vector_builder.", "quantifier": "every bit vector / every strictly increasing position list", "why_tests_cant": "number of ones vs. length determines the split between high and low part", "anchors": ["include/sdsl/sd_vector.hpp:sd_vector", "include/sdsl/sd_vector.hpp:sd_vector_builder", "lib/sd_vector.cpp"]}
{"id": "C18", "title": "sd_vector rank", "statement": "rank_support_sd<b>.rank(i) counts the b-bits in [0..i-1] for every i in [0..size()].", "quantifier": "every bit vector, every prefix", "why_tests_cant": "data dependent backwards scan in the high part", "anchors": ["include/sdsl/sd_vector.hpp:rank_support_sd"]}
{"id": "C19", "title": "sd_vector select", "statement": "select_support_sd<1>(i), select_support_sd<0>(i) and select_0_support_sd(i) return the position of the i-th one / zero for every valid i.", "quantifier": "every bit vector, every argument", "why_tests_cant": "binary search over implicit values", "anchors": ["include/sdsl/sd_vector.hpp:select_support_sd", "include/sdsl/sd_vector.hpp:select_0_support_sd"]}
{"id": "C20", "title": "sd_vector get_int", "statement": "get_int(idx,len) returns the integer formed by the bits idx..idx+len-1.", "quantifier": "every bit vector, every idx, len in 1..64", "why_tests_cant": "data dependent backwards scan", "anchors": ["include/sdsl/sd_vector.hpp:sd_vector::get_int"]}
{"id": "C21", "title": "Combinatorial number system of rrr blocks is a bijection", "statement": "For every block size n and every n-bit block with k ones, bin_to_nr gives a number below binomial(n,k) that fits in space_for_bt(k) bits, different blocks with equal k get different numbers, and decode_bit/decode_popcount/decode_select/decode_int applied to (k, number) give the bits, prefix popcounts, select positions and substrings of the original block.", "quantifier": "every block size (7..256), every block", "why_tests_cant": "2^n blocks", "anchors": ["include/sdsl/rrr_helper.hpp:rrr_helper", "include/sdsl/rrr_helper.hpp:binomial_coefficients_trait"]}
{"id": "C22", "title": "rrr_vector is a lossless compressed bit vector with rank/select", "statement": "rrr_vector<t_bs>(bv): operator[], get_int, rank_support_rrr<b>, select_support_rrr<b> agree with the plain bit vector for every index.", "quantifier": "every bit vector, every block size and sampling rate", "why_tests_cant": "superblock inversion and partial last blocks", "anchors": ["include/sdsl/rrr_vector.hpp:rrr_vector", "include/sdsl/rrr_vector.hpp:rank_support_rrr", "include/sdsl/rrr_vector.hpp:select_support_rrr"]}
{"id": "C23", "title": "Elias gamma code round trip", "statement": "Encoding any sequence of 64-bit values with coder::elias_gamma and decoding yields the sequence, encoding_length is the exact number of bits used, and decode_prefix_sum gives the sum modulo 2^64.", "quantifier": "every value sequence, every starting bit offset", "why_tests_cant": "all values x all alignments", "anchors": ["include/sdsl/coder_elias_gamma.hpp:elias_gamma", "lib/coder_elias_gamma.cpp:decode_prefix_sum"]}
{"id": "C24", "title": "Elias delta code round trip", "statement": "Same as C23 for coder::elias_delta.", "quantifier": "every value sequence, every starting bit offset", "why_tests_cant": "all values x all alignments; table driven fast path", "anchors": ["include/sdsl/coder_elias_delta.hpp:elias_delta", "lib/coder_elias_delta.cpp:decode_prefix_sum"]}
{"id": "C25", "title": "Fibonacci code round trip", "statement": "Same as C23 for coder::fibonacci (values 1..2^64-1, and 0 standing for 2^64).", "quantifier": "every value, every starting bit offset", "why_tests_cant": "2^64 values; codes longer than 64 bits take a separate path", "anchors": ["include/sdsl/coder_fibonacci.hpp:fibonacci", "lib/coder_fibonacci.cpp:decode_prefix_sum"]}
{"id": "C26", "title": "Comma code round trip", "statement": "Same as C23 for coder::comma.", "quantifier": "every value sequence, every starting bit offset, every digit width for which the class's int expressions are defined (2..30)", "why_tests_cant": "all values", "anchors": ["include/sdsl/coder_comma.hpp:comma"]}
{"id": "C27", "title": "enc_vector stores the sequence", "statement": "enc_vector(c)[i] = c[i] for every i and every container of unsigned integers; nothing is written outside its buffers; sample(i) is c[i*dens].", "quantifier": "every container, every sample density", "why_tests_cant": "wrap-around deltas, value type of the container", "anchors": ["include/sdsl/enc_vector.hpp:enc_vector"]}
{"id": "C28", "title": "vlc_vector stores the sequence", "statement": "vlc_vector(c)[i] = c[i] for every i and every container whose values are below 2^64-1.", "quantifier": "every container, every sample density", "why_tests_cant": "all values, all alignments", "anchors": ["include/sdsl/vlc_vector.hpp:vlc_vector"]}
{"id": "C29", "title": "dac_vector and dac_vector_dp store the sequence", "statement": "dac_vector<b>(c)[i] = c[i] for every block width b in 1..63, and dac_vector_dp(c)[i] = c[i] whatever level widths the optimiser chooses; size() is kept.", "quantifier": "every container, every block width / every level plan", "why_tests_cant": "number of levels depends on the data", "anchors": ["include/sdsl/dac_vector.hpp:dac_vector", "include/sdsl/dac_vector.hpp:dac_vector_dp"]}
{"id": "C30", "title": "wt_int answers access, rank, select, inverse_select", "statement": "For the wavelet tree of a sequence S: wt[i]=S[i]; rank(i,c) counts c in S[0..i-1]; select(i,c) is the position of the i-th c; inverse_select(i)=(rank(i,S[i]),S[i]).", "quantifier": "every sequence, every symbol, every index", "why_tests_cant": "all sequences and alphabets", "anchors": ["include/sdsl/wt_int.hpp:wt_int"]}
{"id": "C31", "title": "wt_int order queries", "statement": "lex_count, lex_smaller_count, interval_symbols, quantile_freq return the exact counts/symbols of the interval.", "quantifier": "every sequence, interval and symbol", "why_tests_cant": "all sequences and intervals", "anchors": ["include/sdsl/wt_int.hpp:lex_count", "include/sdsl/wt_int.hpp:lex_smaller_count", "include/sdsl/wt_int.hpp:interval_symbols", "include/sdsl/wt_algorithm.hpp:quantile_freq"]}
{"id": "C32", "title": "2d range search on wavelet trees", "statement": "range_search_2d(lb,rb,vlb,vrb) reports exactly the points (i,S[i]) with lb<=i<=rb and vlb<=S[i]<=vrb.", "quantifier": "every sequence and every query rectangle", "why_tests_cant": "all rectangles, including values beyond the alphabet", "anchors": ["include/sdsl/wt_int.hpp:range_search_2d", "include/sdsl/wm_int.hpp:range_search_2d"]}
{"id": "C33", "title": "wm_int answers access, rank, select, inverse_select", "statement": "Same as C30 for the wavelet matrix.", "quantifier": "every sequence, every symbol, every index", "why_tests_cant": "all sequences and alphabets", "anchors": ["include/sdsl/wm_int.hpp:wm_int"]}
{"id": "C34", "title": "Prefix code shaped wavelet trees (wt_pc)", "statement": "A wavelet tree shaped by any prefix-free code (Huffman, balanced, Hu-Tucker) answers access/rank/select/inverse_select/interval_symbols as defined by the sequence.", "quantifier": "every byte sequence, every code tree", "why_tests_cant": "all code shapes", "anchors": ["include/sdsl/wt_pc.hpp:wt_pc", "include/sdsl/wt_huff.hpp", "include/sdsl/wt_helper.hpp:_byte_tree"]}
{"id": "C35", "title": "int_vector_buffer refines an int_vector for every history", "statement": "Any history of reads, writes (also beyond the end), push_backs, buffer size changes and resets on an int_vector_buffer behaves as on a growing in-memory vector (new elements 0), and after close() the file is exactly what int_vector::serialize of that vector writes.", "quantifier": "every history, every buffer size and width", "why_tests_cant": "unbounded histories; block boundaries", "anchors": ["include/sdsl/int_vector_buffer.hpp:int_vector_buffer"]}
{"id": "C36", "title": "Sorted stacks behave as stacks", "statement": "sorted_int_stack, sorted_stack_support and sorted_multi_stack_support, driven by any history of push/pop respecting the ordering precondition, have the top() and size() of a plain stack, and never access memory outside their arrays.", "quantifier": "every history of push/pop", "why_tests_cant": "unbounded histories", "anchors": ["include/sdsl/sorted_int_stack.hpp", "include/sdsl/sorted_stack_support.hpp", "include/sdsl/sorted_multi_stack_support.hpp"]}
{"id": "C37", "title": "nn_dict_dynamic is a dynamic predecessor/successor dictionary", "statement": "After any history of bit assignments: operator[] returns the last assigned value, next(i) is the smallest set index >= i and prev(i) the largest set index <= i, or size() when none exists.", "quantifier": "every size, every history", "why_tests_cant": "tree depth depends on size; unbounded histories", "anchors": ["include/sdsl/nn_dict_dynamic.hpp:nn_dict_dynamic"]}
{"id": "C38", "title": "inv_perm_support computes the inverse permutation", "statement": "For every permutation P and sampling rate t_s, inv_perm_support(&P)[P[i]] = i for all i, within a number of steps bounded by a constant multiple of t_s.", "quantifier": "every permutation, every sampling parameter", "why_tests_cant": "n! permutations", "anchors": ["include/sdsl/inv_perm_support.hpp:inv_perm_support"]}
{"id": "C39", "title": "hugepage allocator never hands out overlapping or too small memory", "statement": "For every history of mm_alloc/mm_realloc/mm_free: live allocations are pairwise disjoint, inside the arena, at least as large as requested; realloc keeps the old contents; freed memory is coalesced and reusable; free-list bookkeeping matches the heap.", "quantifier": "every history of allocation requests", "why_tests_cant": "unbounded histories; fragmentation states", "anchors": ["include/sdsl/memory_management.hpp:hugepage_allocator", "lib/memory_management.cpp"]}
{"id": "C40", "title": "FM-index counting is exact", "statement": "backward_search/count return, for every pattern, exactly the suffix array interval of suffixes starting with the pattern, and its size is the number of occurrences in the text.", "quantifier": "every text, every pattern", "why_tests_cant": "all texts x patterns", "anchors": ["include/sdsl/suffix_array_algorithm.hpp:backward_search", "include/sdsl/suffix_array_algorithm.hpp:count"]}
{"id": "C41", "title": "LF and psi are inverse and describe suffix order", "statement": "csa.lf and csa.psi are mutually inverse permutations, SA[psi[i]] = SA[i]+1 mod n, and bwt[i] = text[SA[i]-1].", "quantifier": "every text", "why_tests_cant": "all texts", "anchors": ["include/sdsl/suffix_array_helper.hpp", "include/sdsl/csa_wt.hpp", "include/sdsl/csa_sada.hpp"]}
{"id": "C42", "title": "Sampled suffix array access is exact", "statement": "csa[i] and csa.isa[j] computed from samples and LF/psi steps equal the suffix array and its inverse for every sampling density; locate and extract are exact.", "quantifier": "every text, every sampling density and index", "why_tests_cant": "all texts", "anchors": ["include/sdsl/csa_sampling_strategy.hpp", "include/sdsl/csa_wt.hpp:operator[]", "include/sdsl/suffix_array_algorithm.hpp:locate", "include/sdsl/suffix_array_algorithm.hpp:extract"]}
{"id": "C43", "title": "LCP construction (Kasai / PHI)", "statement": "The LCP array produced by construct_lcp_semi_extern_PHI (construct() for byte texts), construct_lcp_PHI (construct() for integer texts) and construct_lcp_kasai equals the lengths of the longest common prefixes of suffixes adjacent in suffix array order.", "quantifier": "every text", "why_tests_cant": "amortised algorithm correctness for all texts", "anchors": ["lib/construct_lcp.cpp: construct_lcp_semi_extern_PHI", "include/sdsl/construct_lcp.hpp: construct_lcp_kasai, construct_lcp_PHI"]}
{"id": "C44", "title": "Balanced parentheses navigation", "statement": "find_close, find_open, enclose, excess, rank/select, rr_enclose of bp_support structures return the positions defined by matching in the parentheses sequence.", "quantifier": "every balanced parentheses sequence", "why_tests_cant": "all sequences; block boundaries", "anchors": ["include/sdsl/bp_support_sada.hpp", "include/sdsl/bp_support_g.hpp", "include/sdsl/bp_support_algorithm.hpp"]}
{"id": "C45", "title": "Range minimum/maximum queries", "statement": "rmq(l,r) returns the position of a (leftmost resp. rightmost as documented) minimal/maximal element of A[l..r] without accessing A for the succinct variants.", "quantifier": "every array, every range", "why_tests_cant": "all arrays and ranges", "anchors": ["include/sdsl/rmq_support_sparse_table.hpp", "include/sdsl/rmq_succinct_sct.hpp", "include/sdsl/rmq_succinct_sada.hpp"]}
{"id": "C46", "title": "louds_tree navigation", "statement": "For every ordered tree, LOUDS child/parent/degree/id are mutually consistent and describe the tree.", "quantifier": "every tree", "why_tests_cant": "all trees", "anchors": ["include/sdsl/louds_tree.hpp"]}
{"id": "C47", "title": "k2_tree stores exactly the given relation", "statement": "A k2_tree built from a square 0/1 matrix or from a list of edges answers adj(i,j), neigh(i), reverse_neigh(i) and range(rectangle) with exactly the pairs of the relation, each reported once, and both constructors build the same tree.", "quantifier": "every arity k > 1, every matrix / edge list in any order with repetitions, every query", "why_tests_cant": "all matrices and all edge orders (the edge constructor sorts in place, level by level)", "anchors": ["include/sdsl/k2_tree.hpp: k2_tree, build_from_matrix, build_from_edges, adj, neigh, reverse_neigh, range", "include/sdsl/k2_tree_helper.hpp: _build_from_matrix, get_chunk_idx"]}
{"id": "C48", "title": "bit_vector_il is a lossless bit vector with rank/select", "statement": "bit_vector_il<bs>(bv): operator[], get_int, rank and select agree with the plain bit vector.", "quantifier": "every bit vector, every block size (power of two >= 64)", "why_tests_cant": "interleaving with sampled binary search", "anchors": ["include/sdsl/bit_vector_il.hpp"]}
{"id": "C49", "title": "Wide integer arithmetic", "statement": "uint128_t and uint256_t operators (+,-,~,<<,>>,&,|,comparison), popcount, hi and select agree with arithmetic modulo 2^128 / 2^256.", "quantifier": "all operands, all shift amounts below the width", "why_tests_cant": "2^256 operands", "anchors": ["include/sdsl/uint128_t.hpp", "include/sdsl/uint256_t.hpp"]}
{"id": "C50", "title": "RAM file system", "statement": "After any history of store/remove/rename the RAM file system maps exactly the live names to the last stored contents; reading through ram_filebuf returns the written bytes.", "quantifier": "every history", "why_tests_cant": "unbounded histories", "anchors": ["include/sdsl/ram_fs.hpp", "lib/ram_fs.cpp", "lib/ram_filebuf.cpp"]}
{"id": "C51", "title": "rank and select are inverse", "statement": "For every supported bit vector: rank(select(i)) = i-1, b[select(i)] is the pattern, and select(rank(i)+1) is the first occurrence at or after i.", "quantifier": "every bit vector and argument", "why_tests_cant": "consequence law that must hold across all implementations", "anchors": ["include/sdsl/rank_support.hpp", "include/sdsl/select_support.hpp"]}
{"id": "C52", "title": "Bit-parallel operations on bit vectors", "statement": "flip() negates every bit; &=, |= and ^= with a vector of the same size combine the bits position by position; size and width stay the same.", "quantifier": "every vector (and pair of vectors of equal bit size), whatever the unused bits of the last word contain", "why_tests_cant": "all sizes and contents, including stale padding bits", "anchors": ["include/sdsl/int_vector.hpp:int_vector::flip", "include/sdsl/int_vector.hpp:int_vector::operator&=", "include/sdsl/int_vector.hpp:int_vector::operator|=", "include/sdsl/int_vector.hpp:int_vector::operator^="]}
{"id": "C53", "title": "Generic wavelet tree queries", "statement": "On the wavelet tree of S: symbol_lte(c)/symbol_gte(c) return the greatest symbol <= c / least symbol >= c or report that there is none; intersect(ranges,t) returns exactly the symbols that occur in at least t of the ranges with their total frequency; restricted_unique_range_values(x_i,x_j,y_i,y_j) returns exactly the different symbols of S[x_i..x_j] with value in [y_i,y_j].", "quantifier": "every sequence, every symbol, every list of ranges and threshold, every rectangle", "why_tests_cant": "all sequences, thresholds and combinations of ranges", "anchors": ["include/sdsl/wt_algorithm.hpp:symbol_lte", "include/sdsl/wt_algorithm.hpp:symbol_gte", "include/sdsl/wt_algorithm.hpp:intersect", "include/sdsl/wt_algorithm.hpp:restricted_unique_range_values"]}
{"id": "C54", "title": "Alphabet strategies map symbols to ranks and back", "statement": "For every non-empty text, the byte, succinct byte and integer alphabet strategies report sigma = number of distinct symbols, char2comp[c] = rank of c among the distinct symbols, comp2char as its inverse, C[k] = number of text symbols smaller than the k-th distinct symbol with C[sigma] = text length, and map every absent symbol to 0.", "quantifier": "all non-empty texts (symbols below 256 for the byte strategies, arbitrary symbols for the integer strategy)", "why_tests_cant": "Tests build a handful of texts; the number of present/absent symbol sets is 2^256 for bytes and unbounded for integers, with boundary cases at symbol 255 and at full alphabets.", "anchors": ["include/sdsl/csa_alphabet_strategy.hpp: byte_alphabet, succinct_byte_alphabet, int_alphabet", "lib/csa_alphabet_strategy.cpp: byte_alphabet::byte_alphabet"]}
{"id": "C55", "title": "LCP representations return the LCP array", "statement": "operator[] of lcp_support_sada (given the suffix array), lcp_byte and lcp_wt returns, at every index, the LCP value the structure was built from, whatever mix of small and large values occurs.", "quantifier": "every text and LCP array (lcp_support_sada), every list of values (lcp_byte, lcp_wt), every index", "why_tests_cant": "values around the escape value 255, the width computations and the unary code positions depend on the whole array", "anchors": ["include/sdsl/lcp_support_sada.hpp: _lcp_support_sada", "include/sdsl/lcp_byte.hpp", "include/sdsl/lcp_wt.hpp"]}
{"id": "C56", "title": "k2_treap count, range and top-k", "statement": "A k2_treap built from weighted points reports, for every rectangle, exactly the points inside it: count returns their number, the range iterator reports those in a weight interval, and the top-k iterator reports all of them in order of decreasing weight.", "quantifier": "every set of weighted points with distinct coordinates, every arity, every rectangle and weight interval", "why_tests_cant": "all point sets, all shapes of the recursion, ties between weights", "anchors": ["include/sdsl/k2_treap.hpp: construct, root, children", "include/sdsl/k2_treap_algorithm.hpp: top_k_iterator, range_iterator, count"]}
{"id": "C57", "title": "Bidirectional search keeps both intervals in step", "statement": "Given the interval of w in the index of a text and the interval of the reversed w in the index of the backward text, bidirectional_search_backward returns the two intervals of Pw and its reverse, bidirectional_search_forward those of wP and its reverse, and both return the number of occurrences (0 if there is none).", "quantifier": "every text, every pair of matching intervals, every pattern, every sequence of extensions to the left and right, every alphabet strategy", "why_tests_cant": "all texts and all interleavings of left and right extensions, including absent symbols and empty intervals", "anchors": ["include/sdsl/suffix_array_algorithm.hpp: bidirectional_search, bidirectional_search_backward, bidirectional_search_forward"]}
{"id": "C58", "title": "The compressed suffix tree navigates the LCP intervals", "statement": "A cst_sct3 built from an LCP array has exactly one node per LCP interval: root, leaves, parent, children, sibling, lca, depth, node_depth, degree, leftmost and rightmost leaf return the node (or number) that the tree of nested intervals prescribes, select_child enumerates all children from left to right, id and inv_id are inverse bijections onto [0, nodes()), and no operation meets undefined behaviour.", "quantifier": "every LCP array of a text, every pair of nodes, every block size and degree of the parentheses support", "why_tests_cant": "all shapes of trees, all block boundaries of the parentheses sequence, word scans of every length over the first-child vector", "anchors": ["include/sdsl/cst_sct3.hpp: cst_sct3, bp_interval, parent, children, select_child, sibling, lca, depth, node_depth, degree, id, inv_id, tlcp_idx", "include/sdsl/suffix_tree_helper.hpp: construct_supercartesian_tree_bp_succinct_and_first_child"]}
{"id": "C59", "title": "The compressed suffix tree is the suffix tree of the text", "statement": "For the cst_sct3 of a text every node stands for one string, the longest prefix common to the suffixes of its rows; its rows are exactly the suffixes starting with that string and depth is the length of the string; every string occurring in the text has a node for its rows. child(v,c) is the child of v on the branch starting with c, and the root if there is none; edge(v,d) is the d-th symbol of the string of v; sl(v) is the node of the string without its first symbol (the root for the root); wl(v,c) is the node of c followed by the string, and the root if this string does not occur. No operation meets undefined behaviour.", "quantifier": "every text over byte or integer alphabets, every admitted type of suffix array, every node, symbol, position and sampling density", "why_tests_cant": "all texts and tree shapes; binary searches over children and symbols of every size; boundaries of the intervals; the switch between walking with psi and inverse suffix array access", "anchors": ["include/sdsl/cst_sct3.hpp: child, edge, sl, wl", "include/sdsl/suffix_tree_helper.hpp: get_char_pos"]}
{"id": "C60", "title": "The run-length wavelet tree answers for the sequence", "statement": "A wt_rlmn built from a byte or integer sequence returns on [i] the i-th symbol, on rank(i,c) the number of c among the first i symbols for every i in [0..size()] and every c (0 if c does not occur), on select(i,c) the position of the i-th c, and on inverse_select(i) the pair (rank(i,S[i]), S[i]). No query with arguments in range meets undefined behaviour.", "quantifier": "every sequence over byte or integer alphabets, every position, symbol and occurrence number", "why_tests_cant": "all run structures: runs at the ends, symbols with one run, absent symbols, ranks between two runs of a symbol and behind its last run", "anchors": ["include/sdsl/wt_rlmn.hpp: wt_rlmn, operator[], rank, select, inverse_select"]}
{"id": "C61", "title": "The suffix tree iterators visit every node in the documented order", "statement": "The loop from begin(v) to end(v) of a cst_sct3 shows every inner node of the subtree of v twice, before (visit() = 1) and after (visit() = 2) its children, and every leaf once, children from left to right; skip_subtree() followed by ++ continues behind the subtree wherever it is called. The loop from begin_bottom_up() to end_bottom_up() shows every node once, behind its children. cst_bfs_iterator shows the nodes below its start node level by level. All loops end.", "quantifier": "every LCP array of a text, every start node, every mix of ++ and skip_subtree() calls, every content of the uninitialised stack size", "why_tests_cant": "all tree shapes, in particular trees deeper than the 128 cached ancestors and iterators started inside the tree", "anchors": ["include/sdsl/cst_iterators.hpp: cst_dfs_const_forward_iterator, cst_bottom_up_const_forward_iterator, cst_bfs_iterator", "include/sdsl/cst_sct3.hpp: begin, end, begin_bottom_up, end_bottom_up"]}
{"id": "C62", "title": "The alphabet-partitioned wavelet tree wt_ap answers access, rank, select and inverse_select for the stored sequence", "statement": "For a wt_ap built from a sequence S, size() and sigma are the length and the number of distinct symbols, operator[] returns S[i], rank(i,c) the number of c in the first i symbols (0 for a symbol that does not occur), select(i,c) the position of the i-th c, inverse_select(i) the pair (rank(i,S[i]), S[i]).", "quantifier": "every sequence over 64-bit symbols, every position, every symbol", "why_tests_cant": "all frequency distributions decide how symbols are grouped into classes; every grouping must be invertible", "anchors": ["include/sdsl/wt_ap.hpp: wt_ap, operator[], rank, inverse_select, select, try_get_char_class_offset"]}
{"id": "C63", "title": "wt_gmr_rs answers access, rank, select and inverse_select for the stored sequence", "statement": "For a wt_gmr_rs built from a sequence S, size() and sigma are the length and the number of distinct symbols, operator[] returns S[i] and terminates, rank(i,c) is the number of c in the first i symbols (0 for symbols that do not occur), select(i,c) the position of the i-th c, inverse_select(i) the pair (rank(i,S[i]), S[i]).", "quantifier": "every integer sequence, every position, every symbol, cells of fewer and of at least 50 occurrences", "why_tests_cant": "the layout depends on the distribution of every symbol over blocks of sigma positions; both search branches and all widths must agree for all distributions", "anchors": ["include/sdsl/wt_gmr.hpp: wt_gmr_rs, operator[], rank, inverse_select, select"]}
{"id": "C64", "title": "inv_multi_perm_support inverts every permutation of a concatenation", "statement": "For a vector that is cut into chunks of the given size, each holding a permutation of 0..(chunk length)-1, the constructor of inv_multi_perm_support succeeds without any access outside a vector, and operator[] maps (chunk start + v[i]) to i, for every i, within at most 2*t_s+2 reads of the vector.", "quantifier": "every number of chunks and chunk size (last chunk possibly shorter), every permutation in every chunk, every t_s >= 1, every index", "why_tests_cant": "the marked positions and back pointers depend on the cycle structure of every chunk, on t_s and on the chunk border", "anchors": ["include/sdsl/wt_gmr.hpp: inv_multi_perm_support, operator[]"]}
{"id": "C65", "title": "wt_gmr answers access, rank, select and inverse_select for the stored sequence", "statement": "For a wt_gmr built from a sequence S, size() and sigma are the length and the number of distinct symbols, operator[] returns S[i], rank(i,c) is the number of c in the first i symbols (0 for symbols that do not occur), select(i,c) the position of the i-th c, inverse_select(i) the pair (rank(i,S[i]), S[i]); construction and queries never leave their arrays.", "quantifier": "every integer sequence with symbols below 2^63, every position, every symbol, every t_s of the inverse permutation support", "why_tests_cant": "the answer combines two unary coded vectors, per-chunk permutations and their sampled inverses, whose shapes depend on the whole sequence; widths and chunk borders must agree for all of them", "anchors": ["include/sdsl/wt_gmr.hpp: wt_gmr, operator[], rank, inverse_select, select"]}
{"id": "C66", "title": "Structures behave like values under copying, moving, swapping and destruction", "statement": "An object of a composite structure (wavelet trees, compressed vectors, alphabets, samplings, rmq and suffix array/tree structures) that was constructed, copied, assigned, moved into or swapped into keeps answering for its own value: every member has the content of that value and every rank/select/inverse support it owns is attached to its own live member, whatever is later done to, or destroyed of, the objects it was copied or moved from.", "quantifier": "every finite program of constructions, copy and move constructions, copy and move assignments (including self-assignment), swaps (including self-swap) and destructions over any number of objects, every member content, whatever std::move leaves behind", "why_tests_cant": "a support that still points into another object answers correctly as long as that object lives unchanged; only the histories in which it is destroyed or overwritten later expose it, and those are unbounded", "anchors": ["include/sdsl/wt_int.hpp, wt_pc.hpp, wm_int.hpp, wt_rlmn.hpp, wt_ap.hpp, wt_gmr.hpp: copy/move constructors, operator=, swap", "include/sdsl/sd_vector.hpp, dac_vector.hpp, nearest_neighbour_dictionary.hpp, inv_perm_support.hpp, rmq_succinct_sada.hpp, rmq_succinct_sct.hpp, bp_support_g.hpp", "include/sdsl/csa_alphabet_strategy.hpp, csa_sampling_strategy.hpp, csa_wt.hpp, csa_sada.hpp, cst_sada.hpp, cst_sct3.hpp, cst_fully.hpp", "include/sdsl/util.hpp: swap_support, init_support"]}
{"id": "C67", "title": "Saving and loading keeps values in every history", "statement": "serialize followed by load gives an object with the same value: every member has the content that was saved and every rank/select/inverse support is attached to the loaded object's own member and answers for its content. load may be called on an object with any previous content, including a moved-from one, and consumes exactly the bytes serialize wrote, so several objects can be written to and read back from one file in order; copying, moving, swapping and destroying objects in between does not matter.", "quantifier": "every finite program of constructions, copies, moves, swaps, destructions, saves and loads over any number of objects and files, every member content", "why_tests_cant": "a load that leaves a support attached to the old vector, or that disagrees with serialize on the order of members which happen to be equal in the test, passes a single round trip into a fresh object; the property ranges over all contents, previous states and file layouts", "anchors": ["include/sdsl/wt_int.hpp, wt_pc.hpp, wm_int.hpp, wt_rlmn.hpp, wt_ap.hpp, wt_gmr.hpp: serialize, load", "include/sdsl/sd_vector.hpp, dac_vector.hpp, nearest_neighbour_dictionary.hpp, inv_perm_support.hpp, rmq_succinct_sada.hpp, rmq_succinct_sct.hpp, bp_support_g.hpp: serialize, load", "include/sdsl/csa_alphabet_strategy.hpp, csa_sampling_strategy.hpp, csa_wt.hpp, csa_sada.hpp, cst_sada.hpp, cst_sct3.hpp, cst_fully.hpp, lcp.hpp: serialize, load, load_lcp"]}
{"id": "C68", "title": "Owned arrays are freed exactly once and never used after being freed", "statement": "A select_support_mcl owns its long-block and mini-block arrays, a depth first suffix tree iterator its ancestor cache. Copying, moving, assigning, swapping and destroying such objects never deletes an array twice, never reads a deleted one, gives every object its own arrays with the contents of its value, and leaves no array allocated that no living object owns.", "quantifier": "every finite program of constructions, copies, moves, assignments (including to itself), swaps and destructions over any number of objects, every array content, with or without each array", "why_tests_cant": "double deletes, dangling reads and leaks are silent in ordinary runs and depend on the order of destruction; the histories are unbounded", "anchors": ["include/sdsl/select_support_mcl.hpp: copy, operator=, move constructor, swap, destructor", "include/sdsl/cst_iterators.hpp: cst_dfs_const_forward_iterator constructors and destructor"]}
{"id": "C69", "title": "int_vector memory is owned once, accessed in bounds, freed once and counted by the memory monitor", "statement": "Constructing, copying, moving, assigning (also to itself), swapping, resizing, writing and destroying int_vectors never frees a block twice, never touches freed memory or words outside the allocated block, leaves each vector with its own value, leaves no block allocated that no living vector owns, lets resize keep every word that is still inside, and keeps the number of bytes recorded by the memory monitor equal to the bytes of the living vectors, so it is 0 again when all are destroyed.", "quantifier": "every finite program of these operations over any number of vectors, every size including 0 and multiples of 64, every content", "why_tests_cant": "leaks, double frees and out-of-bounds words are silent in ordinary runs, and histories and sizes are unbounded", "anchors": ["include/sdsl/memory_management.hpp: memory_manager::resize, clear, realloc_mem, free_mem, memory_monitor::record", "include/sdsl/int_vector.hpp: constructors, operator=, swap, destructor, bit_resize"]}
{"id": "C70", "title": "The memory monitor reports the memory in use", "statement": "After start, the monitor's usage is the sum of the changes recorded since; every ended event is listed in order with its name and, as last point, the usage when it ended; after stop, peak() is at least the final usage and at most the largest usage since start, and equals it when no two changes lie within the log granularity. No history makes the monitor misbehave.", "quantifier": "every finite sequence of start, stop, record and nested event scopes, every clock behaviour, every granularity, every change", "why_tests_cant": "the log depends on the timing of allocations, and histories are unbounded; misuse of event scopes is silent undefined behaviour", "anchors": ["include/sdsl/memory_management.hpp: memory_monitor::start, stop, record, event, peak, mm_event_proxy"]}
{"id": "C71", "title": "Memory accounting is exact under concurrency", "statement": "When several threads allocate and free int_vectors while the memory monitor runs, the monitor's usage after all of them is the sum of all their changes and its log is that of some one-after-the-other order respecting each thread's order. Code under the library's spin lock is executed by one thread at a time, takes effect as if calls were made one after the other, and the lock never deadlocks.", "quantifier": "every number of threads, every sequence of calls per thread, every schedule of their steps", "why_tests_cant": "schedules cannot be enumerated; lost updates appear only under rare interleavings", "anchors": ["include/sdsl/util.hpp: spin_lock", "include/sdsl/memory_management.hpp: memory_monitor::record"]}
{"id": "C72", "title": "Temporary files get distinct names", "statement": "The names that tmp_file hands out are pairwise different: within a process for all directories and name parts, and between processes, so two constructions never write to the same temporary file.", "quantifier": "every sequence of requests (directory, name part) shorter than 2^64, every start of the counter, every pair of process ids, every schedule of threads", "why_tests_cant": "collisions depend on counter values, name parts and schedules that no test enumerates", "anchors": ["lib/io.cpp: tmp_file", "include/sdsl/util.hpp: _id_helper::getId, to_string", "lib/util.cpp: id"]}
{"id": "C73", "title": "The construction cache is a map per config", "statement": "load_from_cache and cache_file_exists see the value last stored under the same config, key and type since the last delete_all_files; other keys and other configs, also in the same directory, do not interfere, and delete_all_files leaves no stored file behind.", "quantifier": "every history of store_to_cache, register_cache_file and delete_all_files on any number of configs with constructor-made ids, all keys, values and directories", "why_tests_cant": "name collisions and stale registrations depend on the keys, ids and order of calls, which no finite set of histories covers", "anchors": ["lib/io.cpp: cache_file_name, register_cache_file, cache_file_exists", "include/sdsl/io.hpp: load_from_cache, store_to_cache", "lib/util.cpp: delete_all_files", "lib/config.cpp: cache_config"]}
