{
 "claims": [
  {
   "property": "C01",
   "status": "proved",
   "theorems": [
    "C01_cnt",
    "C01_cnt_table",
    "C01_cnt32_partial",
    "C01_cnt32_refuted",
    "C01_sel",
    "C01_hi",
    "C01_hi_zero",
    "C01_lo",
    "C01_lo_zero",
    "C01_rev",
    "C01_lo_set_table"
   ],
   "note": "All 64-bit words, portable code paths (SSE/BMI builtins not modelled). cnt32 is refuted for 0xFFFFFFFF and proved outside the failing masks."
  },
  {
   "property": "C02",
   "status": "proved",
   "theorems": [
    "C02_cnt10",
    "C02_cnt01",
    "C02_cnt11",
    "C02_cnt11_word",
    "C02_map01",
    "C02_map10",
    "C02_sel11",
    "C02_hi11"
   ],
   "note": "Whole word streams with carry; cnt11 is greedy non-overlapping matching."
  },
  {
   "property": "C03",
   "status": "proved",
   "theorems": [
    "C03_read_int",
    "C03_write_int",
    "C03_read_after_write",
    "C03_read_other",
    "C03_read_int_and_move",
    "C03_write_int_and_move",
    "C03_read_unary",
    "C03_read_unary_and_move",
    "C03_move_right",
    "C03_move_left",
    "C03_next",
    "C03_prev"
   ],
   "note": "Every memory, offset 0..63, length 0..64; also read_unary, move_left/right, next, prev."
  },
  {
   "property": "C04",
   "status": "proved",
   "theorems": [
    "C04_history",
    "C04_reference_get",
    "C04_construct",
    "C04_get_set_int",
    "C04_get_int_bits",
    "C04_typed_get",
    "C04_typed_set",
    "C04_bit_get",
    "C04_bit_set",
    "C04_copy",
    "C04_assign",
    "C04_swap"
   ],
   "note": "Any history of writes, ++, --, +=, -=, swap, resize; get_int/set_int at any bit position; int_vector<8/16/32/64> typed access; bit_vector access; constructor; copy, assign, swap."
  },
  {
   "property": "C05",
   "status": "partial",
   "theorems": [
    "C05_resize",
    "C05_bit_resize",
    "C05_padding_partial",
    "C05_padding_refuted"
   ],
   "note": "Resizing keeps contents (all histories). The padding word claim is refuted: 60 bits resized to 64 bits has no padding word; it is proved after construction and after every resize that changes the word count."
  },
  {
   "property": "C06",
   "status": "proved",
   "theorems": [
    "C06_serialize_load"
   ],
   "note": "Any block size, any following bytes, any target vector; also fixed width written as variable width. Bit size below 2^64."
  },
  {
   "property": "C07",
   "status": "partial",
   "theorems": [
    "C07_eq_partial",
    "C07_eq_bits",
    "C07_eq_refuted",
    "C07_lt",
    "C07_gt",
    "C07_le",
    "C07_ge",
    "C07_strict_total_order"
   ],
   "note": "operator== is refuted against the documentation (it ignores the width); exact bit-level characterisation proved, and equality of elements for equal widths. <, >, <=, >= are the lexicographic order."
  },
  {
   "property": "C08",
   "status": "proved",
   "theorems": [
    "C08_iterators",
    "C08_iterator_set"
   ],
   "note": "Signed offsets, all widths 1..64. Pointer overflow beyond the allocation is not modelled (word index is an integer)."
  },
  {
   "property": "C09",
   "status": "partial",
   "theorems": [
    "C09_bit_compress_partial",
    "C09_expand_width_partial",
    "C09_mod",
    "C09_fixed_width_refuted"
   ],
   "note": "Proved for int_vector<0>. Refuted for fixed-width vectors, whose contents are destroyed because width(x) is a no-op there."
  },
  {
   "property": "C10",
   "status": "proved",
   "theorems": [
    "C10_set_to_value",
    "C10_set_to_value_strict",
    "C10_strict_refuted",
    "C10_set_to_id"
   ],
   "note": "For 64-bit vectors set_to_value evaluates k >> 64 (undefined behaviour, refuted in the strict reading); the result is unused and the theorem holds for every outcome of that shift."
  },
  {
   "property": "C11",
   "status": "partial",
   "theorems": [
    "C11_cnt_one_bits",
    "C11_cnt_onezero_bits",
    "C11_cnt_zeroone_bits",
    "C11_prev_bit",
    "C11_next_bit_found",
    "C11_next_bit_partial",
    "C11_next_bit_refuted"
   ],
   "note": "Counting and prev_bit proved for any padding contents; next_bit proved when a set bit exists or the unused bits of the last word are 0, refuted otherwise (shrinking resize leaves stale bits)."
  },
  {
   "property": "C12",
   "status": "proved",
   "theorems": [
    "C12_rank_support_v"
   ],
   "note": "All six patterns, every vector whose capacity is below 2^64 bits, every position up to size()."
  },
  {
   "property": "C13",
   "status": "partial",
   "theorems": [
    "C13_rank_support_v5_partial",
    "C13_rank_support_v5_inner",
    "C13_after_resize_refuted"
   ],
   "note": "All patterns and positions for vectors with the padding word (every constructor), and all positions < size() for every vector. Refuted for rank(size()) after resizing 60 to 64 bits: it reads past the buffer."
  },
  {
   "property": "C14",
   "status": "partial",
   "theorems": [
    "C14_rank_support_scan_partial",
    "C14_after_resize_refuted"
   ],
   "note": "As C13."
  },
  {
   "property": "C15",
   "status": "proved",
   "theorems": [
    "C15_select_support_mcl",
    "C15_init_fast"
   ],
   "note": "All six patterns, init_slow and init_fast (also init_fast on its own for the one-bit patterns), any contents of the uninitialised arg_position buffer. Allocated bits below 2^64."
  },
  {
   "property": "C16",
   "status": "proved",
   "theorems": [
    "C16_select_support_scan"
   ],
   "note": "All patterns (superset of those the class supports)."
  },
  {
   "property": "C17",
   "status": "proved",
   "theorems": [
    "C17_sd_access",
    "C17_sd_from_bit_vector",
    "C17_sd_from_positions",
    "C17_sd_from_builder",
    "C17_sd_builder_not_full",
    "C17_sd_repeated_positions_refuted"
   ],
   "note": "All three constructors (bit_vector, strictly increasing positions, builder) and access. Findings as _refuted: repeated positions pass the is_sorted check but are undefined behaviour."
  },
  {
   "property": "C18",
   "status": "proved",
   "theorems": [
    "C18_sd_empty_range_refuted",
    "C18_sd_rank"
   ],
   "note": "Both bit values, every prefix. Finding as _refuted: sd_vector over an empty range has undefined rank(0)."
  },
  {
   "property": "C19",
   "status": "proved",
   "theorems": [
    "C19_sd_select1",
    "C19_sd_select0",
    "C19_select_0_support_sd"
   ],
   "note": "select_support_sd<1>, <0> and select_0_support_sd including the construction of its sample table."
  },
  {
   "property": "C20",
   "status": "proved",
   "theorems": [
    "C20_sd_get_int"
   ],
   "note": "Every idx and len 1..64; the result is given bit by bit."
  },
  {
   "property": "C21",
   "status": "proved",
   "theorems": [
    "C21_block_code",
    "C21_block_code_injective",
    "C21_block_code_onto",
    "C21_table_fits"
   ],
   "note": "All block sizes n; the numbers are unbounded integers in the model, and C21_table_fits shows that they fit the 64/128/256-bit number types. uint128/uint256 arithmetic itself is C49."
  },
  {
   "property": "C22",
   "status": "proved",
   "theorems": [
    "C22_rrr_construct",
    "C22_rrr_size",
    "C22_rrr_access",
    "C22_rrr_get_int",
    "C22_rrr_rank",
    "C22_rrr_select",
    "C22_rrr_select_beyond"
   ],
   "note": "Generic rrr_vector<t_bs, int_vector<>, t_k> for 3<=t_bs<=256 and every t_k>=2. The specialisation for t_bs=15 is a separate class and is not covered here."
  },
  {
   "property": "C23",
   "status": "partial",
   "theorems": [
    "C23_gamma_sequence_partial",
    "C23_gamma_roundtrip_partial",
    "C23_gamma_length",
    "C23_gamma_zero64_refuted",
    "C23_gamma_prefix_sum_refuted"
   ],
   "note": "Any sequence at any bit offset of any memory: code positions, untouched neighbours, decode, running sums, table-driven prefix sum; vector encode/decode. Two findings restrict it, both as _refuted: a 64-bit zero evaluates 1ULL<<64 on decode, and decode_prefix_sum reads the word behind an exactly allocated vector."
  },
  {
   "property": "C24",
   "status": "partial",
   "theorems": [
    "C24_delta_sequence_partial",
    "C24_delta_roundtrip_partial",
    "C24_delta_length",
    "C24_delta_zero64_refuted",
    "C24_delta_prefix_sum_refuted"
   ],
   "note": "As C23 for elias_delta with its own tables and nested length code."
  },
  {
   "property": "C25",
   "status": "partial",
   "theorems": [
    "C25_fibonacci_sequence_partial",
    "C25_fibonacci_roundtrip_partial",
    "C25_fibonacci_length",
    "C25_fibonacci_small_encodable",
    "C25_fibonacci_shift_refuted"
   ],
   "note": "All values, offsets and sequences the encoder can handle: fib_encodable excludes exactly the values for which encode shifts by a negative distance (refuted for 44945570212853; everything smaller is fine). decode_prefix_sum for fewer than 2^31 bits (int32_t). decode1 is not modelled."
  },
  {
   "property": "C26",
   "status": "proved",
   "theorems": [
    "C26_comma_sequence",
    "C26_comma_roundtrip",
    "C26_comma_length"
   ],
   "note": "All digit widths for which the class's (1<<t_width)-1 is a defined int expression (2..30); widths 31 and 32 overflow a signed int in the source."
  },
  {
   "property": "C27",
   "status": "partial",
   "theorems": [
    "C27_enc_vector_partial",
    "C27_read_past_refuted",
    "C27_narrow_type_refuted"
   ],
   "note": "Both constructors, gamma/delta/comma coders, every density and input. Restrictions with _refuted counterparts: the Elias coders read one word behind the encoded data (decode_prefix_sum), equal neighbours need 1ULL<<64 to be defined, and a container of uint32_t must be nondecreasing. Fibonacci coder not covered (C25)."
  },
  {
   "property": "C28",
   "status": "proved",
   "theorems": [
    "C28_vlc_vector",
    "C28_vlc_throws"
   ],
   "note": "All inputs (64-bit or 32-bit element type) for gamma, delta and comma; the largest value of the type throws logic_error. The Fibonacci coder is not covered (C25)."
  },
  {
   "property": "C29",
   "status": "proved",
   "theorems": [
    "C29_dac",
    "C29_dp",
    "C29_dp_plan"
   ],
   "note": "dac_vector<b> for every b in 1..63 and every container of 64-bit values; dac_vector_dp for every cost function and for every covering plan. The cost arithmetic (double) is abstract; iterators and serialisation are not modelled."
  },
  {
   "property": "C30",
   "status": "partial",
   "theorems": [
    "C30_build",
    "C30_access",
    "C30_rank",
    "C30_inverse_select",
    "C30_select",
    "C30_select_throws",
    "C30_wide_symbol_refuted"
   ],
   "note": "Complete for symbols below 2^63 (any max_level up to 63); a symbol of 64 bits makes the constructor shift by 64, proved as C30_wide_symbol_refuted. The bit vector, rank and select below are the abstractions proved in C04-C16."
  },
  {
   "property": "C31",
   "status": "proved",
   "theorems": [
    "C31_wm_interval_symbols",
    "C31_lex_count",
    "C31_lex_smaller_count",
    "C31_interval_symbols",
    "C31_quantile_freq"
   ],
   "note": "wt_int: lex_count, lex_smaller_count, interval_symbols; wm_int: interval_symbols; both: quantile_freq."
  },
  {
   "property": "C32",
   "status": "partial",
   "theorems": [
    "C32_wm_range_search_partial",
    "C32_wm_clip_refuted",
    "C32_range_search_partial",
    "C32_clip_refuted"
   ],
   "note": "wt_int and wm_int, every rectangle except vlb = 2^max_level, where the answer is wrong (C32_clip_refuted, C32_wm_clip_refuted); symbols below 2^63."
  },
  {
   "property": "C33",
   "status": "partial",
   "theorems": [
    "C33_build",
    "C33_access",
    "C33_inverse_select",
    "C33_select",
    "C33_rank_partial",
    "C33_rank_wide_refuted"
   ],
   "note": "Complete for access, select, inverse_select and construction, 64-bit symbols included; rank for symbols below 2^63, since with 64 levels it shifts by 64 (C33_rank_wide_refuted)."
  },
  {
   "property": "C34",
   "status": "partial",
   "theorems": [
    "C34_build_defined_partial",
    "C34_build_partial",
    "C34_size_partial",
    "C34_access_partial",
    "C34_inverse_select_partial",
    "C34_rank_partial",
    "C34_select_partial",
    "C34_interval_symbols_partial",
    "C34_lex_count_partial",
    "C34_lex_smaller_count_partial",
    "C34_dfs_lex_refuted"
   ],
   "note": "Proved for the Huffman and balanced shapes, byte and int tree strategies, breadth-first layout (the default): construction is defined for every non-empty sequence and throws only when a code exceeds 56 bits; access, inverse_select, rank (all symbols), select, interval_symbols, and for the balanced shape lex_count and lex_smaller_count. Missing: Hu-Tucker shape, depth-first layout (its order queries are refuted), int symbols >= 2^56 for the order queries."
  },
  {
   "property": "C35",
   "status": "partial",
   "theorems": [
    "C35_history",
    "C35_open_partial",
    "C35_open_refuted",
    "C35_plain",
    "C35_plain_open"
   ],
   "note": "New buffers, plain files and files of vectors with clean unused bits: every history is a growing list and close() writes exactly the serialized vector. C35_open_refuted: when an existing file was stored from a vector with set unused bits (for example int_vector<8>(1,255)), a write behind the end can expose them as nonzero new elements. Streams are modelled as never failing; iterator operator- (returns a reference to a local) is not modelled."
  },
  {
   "property": "C36",
   "status": "partial",
   "theorems": [
    "C36_sorted_stack_support",
    "C36_sorted_int_stack",
    "C36_sorted_multi_stack_support_partial",
    "C36_multi_refuted"
   ],
   "note": "sorted_stack_support and sorted_int_stack are proved for every history. For sorted_multi_stack_support the full statement is false: more than 64*(n/64+1) elements (possible with duplicates) index behind m_duplication_stack (C36_multi_refuted); proved as long as the count stays below that. swap, copy and serialize of the stacks are not modelled."
  },
  {
   "property": "C37",
   "status": "proved",
   "theorems": [
    "C37_history",
    "C37_shift_refuted"
   ],
   "note": "Every history of assignments and set_zero_bits for every n > 0. next and prev can evaluate a shift by 64 (or by 63-255) whose result is then ignored: C37_history holds for every result of that shift, C37_shift_refuted shows that legal calls reach it (undefined behaviour read strictly)."
  },
  {
   "property": "C38",
   "status": "proved",
   "theorems": [
    "C38_inverse",
    "C38_total"
   ],
   "note": "For every permutation and every t_s >= 1, with the bound 2*t_s+2 on the reads of the permutation. The rank support of the marked bit vector is rank_of (proved for the supports in C12-C14). For t_s = 0 nothing is claimed. Copy, swap, load and serialize are not modelled."
  },
  {
   "property": "C39",
   "status": "partial",
   "theorems": [
    "C39_disjoint",
    "C39_alloc_partial",
    "C39_free",
    "C39_realloc_partial",
    "C39_reuse",
    "C39_short_refuted",
    "C39_realloc_memcpy_refuted",
    "C39_huge_refuted"
   ],
   "note": "Proved for every history of alloc/free/realloc/writes with request sizes below 2^62 and not 1 mod 8: disjointness, bounds, no undefined behaviour, contents preserved, coalescing and reuse. Sizes 1 mod 8, sizes near 2^64 and the overlapping memcpy in realloc are refuted by the C39_*_refuted theorems."
  },
  {
   "property": "C40",
   "status": "partial",
   "theorems": [
    "C40_count_partial",
    "C40_locate_partial",
    "C40_backward_search_partial",
    "C40_forward_search_partial",
    "C40_interior_zero_refuted",
    "C40_forward_zero_refuted"
   ],
   "note": "For every text, suffix array, index type (csa_wt, csa_sada, csa_bitcompressed), sampling and alphabet: count, locate, backward_search and forward_search agree with the occurrences. Missing because false: patterns with an interior 0 (refuted), csa_sada with fuzzy ISA sampling and the bwt sampling (see C42)."
  },
  {
   "property": "C41",
   "status": "partial",
   "theorems": [
    "C41_lf_psi_partial",
    "C41_bwt_rank_partial",
    "C41_bwt_select_partial"
   ],
   "note": "lf/psi, bwt access, rank_bwt and select_bwt of the three index types and all alphabets. Missing because false: csa_sada with fuzzy ISA sampling, bwt sampling (refuted under C42)."
  },
  {
   "property": "C42",
   "status": "partial",
   "theorems": [
    "C42_sa_isa_partial",
    "C42_text_extract_partial",
    "C42_bwt_sampling_refuted",
    "C42_sada_fuzzy_refuted"
   ],
   "note": "sa, isa, text, extract for SA order, text order and fuzzy sampling at all densities. Missing because false: bwt sampling and csa_sada with the fuzzy ISA support (both refuted)."
  },
  {
   "property": "C43",
   "status": "proved",
   "theorems": [
    "C43_semi_extern_PHI",
    "C43_PHI",
    "C43_kasai"
   ],
   "note": "Three algorithms, all texts ended by their only 0, suffix array width at least log2 of the text length. construct_lcp_go, goPHI, bwt_based and bwt_based2 are not modelled."
  },
  {
   "property": "C44",
   "status": "partial",
   "theorems": [
    "C44_find_close",
    "C44_find_open",
    "C44_enclose",
    "C44_enclose_root",
    "C44_level_anc_partial",
    "C44_excess",
    "C44_partner",
    "C44_deg1_refuted",
    "C44_block_refuted",
    "C44_level_anc_refuted",
    "C44_unmatched_refuted",
    "C44_rmq",
    "C44_rmq_open",
    "C44_rr_enclose",
    "C44_double_enclose"
   ],
   "note": "bp_support_sada (constructor, fwd_excess, bwd_excess, find_close, find_open, enclose, excess, level_anc, rmq, rmq_open, rr_enclose, double_enclose) for every sequence, every block size that is a multiple of 8 and every t_med_deg >= 2 (find_close: >= 1), including the min-max tree. Refuted: t_med_deg = 1, block sizes that are not multiples of 8, level_anc(0,0), unmatched parentheses. Not covered: bp_support_g, bp_support_gg."
  },
  {
   "property": "C45",
   "status": "partial",
   "theorems": [
    "C45_succinct_sct",
    "C45_sct_constructions",
    "C45_sparse_partial",
    "C45_sparse_refuted",
    "C45_succinct_sada"
   ],
   "note": "rmq_support_sparse_table: leftmost extremal position for every container and range, except a two-element container in the wrong order, for which the constructor writes out of bounds (refuted). rmq_succinct_sct and rmq_succinct_sada (minimum and maximum, construction of the parentheses and query): leftmost extremal position for every non-empty array and range."
  },
  {
   "property": "C46",
   "status": "proved",
   "theorems": [
    "C46_build",
    "C46_walk",
    "C46_parent",
    "C46_root_parent",
    "C46_id_injective",
    "C46_id_surjective"
   ],
   "note": "For every tree without unary inner nodes (the trees of suffix trees): construction, nodes, root, child, parent, degree, is_leaf and id."
  },
  {
   "property": "C47",
   "status": "proved",
   "theorems": [
    "C47_matrix",
    "C47_matrix_range",
    "C47_range_empty_refuted",
    "C47_edges",
    "C47_constructors_agree"
   ],
   "note": "k2_tree: both constructors, adj, neigh, reverse_neigh, range; range on an empty relation refuted"
  },
  {
   "property": "C48",
   "status": "partial",
   "theorems": [
    "C48_build_partial",
    "C48_access",
    "C48_get_int",
    "C48_rank",
    "C48_select",
    "C48_after_resize_refuted"
   ],
   "note": "bit_vector_il with every block size t_bs >= 64, its [] and get_int, rank_support_il<0/1> and select_support_il<0/1> (binary search with the sample cache) are proved for every bit_vector that has its padding word. Missing: a bit_vector whose padding word is not allocated, where C48_after_resize_refuted shows the constructor reading past the allocation."
  },
  {
   "property": "C49",
   "status": "partial",
   "theorems": [
    "C49_u128_add",
    "C49_u128_add64",
    "C49_u128_sub",
    "C49_u128_bitops",
    "C49_u128_shl",
    "C49_u128_shr",
    "C49_u128_compare",
    "C49_u128_compare64",
    "C49_u128_popcount",
    "C49_u128_hi",
    "C49_u128_select",
    "C49_u128_print",
    "C49_u256_add",
    "C49_u256_sub",
    "C49_u256_bitops",
    "C49_u256_shl_partial",
    "C49_u256_shl_refuted",
    "C49_u256_shr",
    "C49_u256_compare",
    "C49_u256_compare64",
    "C49_u256_popcount",
    "C49_u256_hi",
    "C49_u256_select",
    "C49_u256_print"
   ],
   "note": "Every operator of the portable uint128_t class and of uint256_t (over the portable class and over the compiler's 128-bit type) is proved equal to arithmetic modulo 2^128 / 2^256, including popcount, hi, select and printing. Missing: uint256_t << 0 over the compiler's type, which C49_u256_shl_refuted shows shifts a 128-bit number by 128 (undefined)."
  },
  {
   "property": "C50",
   "status": "partial",
   "theorems": [
    "C50_history_partial",
    "C50_stream",
    "C50_write",
    "C50_names",
    "C50_rename_self_refuted",
    "C50_rename_missing_refuted",
    "C50_append_refuted",
    "C50_seek_cur_refuted"
   ],
   "note": "Proved for every history whose renames have an existing source different from the target, and for every sequence of writes and absolute seeks. rename(x,x), rename of a missing file, append mode and relative seeks are refuted."
  },
  {
   "property": "C51",
   "status": "proved",
   "theorems": [
    "C51_rank_select_inverse"
   ],
   "note": "Stated for rank_support_v and select_support_mcl; the other structures are proved equal to the same rank/select specification."
  },
  {
   "property": "C52",
   "status": "proved",
   "theorems": [
    "C52_flip",
    "C52_and",
    "C52_or",
    "C52_xor"
   ],
   "note": "flip, &=, |=, ^= for vectors of equal bit size (the code throws otherwise; modelled as failure)."
  },
  {
   "property": "C53",
   "status": "partial",
   "theorems": [
    "C53_symbol_lte",
    "C53_symbol_gte",
    "C53_intersect",
    "C53_restricted_unique_range_values",
    "C53_wide_refuted"
   ],
   "note": "wt_int and wm_int. symbol_lte, symbol_gte and restricted_unique_range_values need max_level <= 63: with 64 levels they shift by 64 (C53_wide_refuted). intersect is complete."
  },
  {
   "property": "C54",
   "status": "proved",
   "theorems": [
    "C54_byte_alphabet",
    "C54_succinct_byte_alphabet",
    "C54_int_alphabet"
   ],
   "note": "All three alphabet strategies."
  },
  {
   "property": "C55",
   "status": "proved",
   "theorems": [
    "C55_lcp_support_sada",
    "C55_lcp_byte",
    "C55_lcp_wt",
    "C55_lcp_wt_build"
   ],
   "note": "lcp_wt: when its Huffman tree can be built (at most 57 distinct small values always suffice; otherwise the constructor may throw because a code is longer than 56 bits)."
  },
  {
   "property": "C56",
   "status": "proved",
   "theorems": [
    "C56_count",
    "C56_top_k",
    "C56_range_3d",
    "C56_empty",
    "C56_origin_refuted",
    "C56_narrow_refuted",
    "C56_duplicates_refuted"
   ],
   "note": "k2_treap<k> for every k >= 2, every point set with distinct coordinates that has a point other than the origin (or is empty), every std::partition behaviour, coordinates below k^h with k^h representable in 64 bits and in the coordinate type. Both excluded cases are shown to fail by C56_origin_refuted, C56_narrow_refuted and C56_duplicates_refuted."
  },
  {
   "property": "C57",
   "status": "partial",
   "theorems": [
    "C57_backward_partial",
    "C57_forward_partial",
    "C57_wide_symbol_refuted"
   ],
   "note": "Every text, suffix arrays of the text and of the backward text, alphabet strategy, matching pair of intervals and pattern without 0: both directions return the two intervals of the extended pattern and its number of occurrences. Missing because false: pattern symbols >= 256 on integer alphabets (C57_wide_symbol_refuted)."
  },
  {
   "property": "C58",
   "status": "proved",
   "theorems": [
    "C58_construct",
    "C58_root_leaves",
    "C58_node",
    "C58_parent",
    "C58_children",
    "C58_leaf_children",
    "C58_sibling",
    "C58_lca",
    "C58_depth",
    "C58_node_depth",
    "C58_ids",
    "C58_tlcp_idx"
   ],
   "note": "cst_sct3 navigation over the intervals of the LCP array. The alphabet size given to the tree is the number of zeros of the LCP array. Operations that read the text: C59."
  },
  {
   "property": "C59",
   "status": "partial",
   "theorems": [
    "C59_text",
    "C59_labels",
    "C59_child",
    "C59_edge",
    "C59_sl",
    "C59_wl_partial",
    "C59_wl_zero_refuted"
   ],
   "note": "Labels, child, edge and suffix links are proved in full for all admitted suffix arrays (kind_ok). C59_wl_partial excludes the symbol 0, for which the claim is false (C59_wl_zero_refuted)."
  },
  {
   "property": "C60",
   "status": "proved",
   "theorems": [
    "C60_construct",
    "C60_access",
    "C60_rank",
    "C60_select",
    "C60_inverse_select"
   ],
   "note": "All queries for all sequences. Rank/select on bl and bf and the wavelet tree over the run heads are the abstractions proved in C12-C18 and C30-C34."
  },
  {
   "property": "C61",
   "status": "partial",
   "theorems": [
    "C61_dfs_partial",
    "C61_skip_partial",
    "C61_tour_all",
    "C61_bottom_up",
    "C61_post_all",
    "C61_bfs",
    "C61_dfs_single_refuted"
   ],
   "note": "Bottom up and breadth first are proved in full. Depth first and skip_subtree need at least two rows (false for one row, C61_dfs_single_refuted) and at most 2^32 rows because of the 32 bit stack size."
  },
  {
   "property": "C62",
   "status": "proved",
   "theorems": [
    "C62_construct",
    "C62_access",
    "C62_rank",
    "C62_select",
    "C62_inverse_select"
   ],
   "note": "Constructor and queries for all sequences; 8-bit classes shown sufficient for 64-bit symbols. Inner wavelet trees enter through their proved answers (C30-C34)."
  },
  {
   "property": "C63",
   "status": "proved",
   "theorems": [
    "C63_construct",
    "C63_access",
    "C63_rank",
    "C63_select",
    "C63_inverse_select"
   ],
   "note": "Constructor (with the int_vector widths) and queries for all sequences. Select answers of B enter through C14-C18."
  },
  {
   "property": "C64",
   "status": "proved",
   "theorems": [
    "C64_inverse",
    "C64_total"
   ],
   "note": "every chunk size, every permutation per chunk; fuel = the 2*t_s+2 reads claimed"
  },
  {
   "property": "C65",
   "status": "proved",
   "theorems": [
    "C65_construct",
    "C65_access",
    "C65_rank",
    "C65_select",
    "C65_inverse_select"
   ],
   "note": "symbols below 2^63, because 1ULL << (hi+1) is undefined above; std::lower_bound by contract; the copy constructor (section 6 of DESIGN.md) is not modelled"
  },
  {
   "property": "C66",
   "status": "partial",
   "theorems": [
    "C66_wt_int",
    "C66_wt_pc",
    "C66_wm_int",
    "C66_wt_rlmn",
    "C66_wt_gmr_rs",
    "C66_sd_vector",
    "C66_dac_vector",
    "C66_dac_vector_dp",
    "C66_alphabet",
    "C66_text_order_sampling",
    "C66_fuzzy_sa_sampling",
    "C66_rmq_sada",
    "C66_rmq_sct",
    "C66_nearest_neighbour_dictionary",
    "C66_cst_sada",
    "C66_cst_sct3",
    "C66_cst_fully",
    "C66_csa_isa_sampling",
    "C66_inv_perm_support",
    "C66_inv_multi_perm_support",
    "C66_bp_support_g",
    "C66_wt_ap",
    "C66_wt_gmr_refuted",
    "C66_wt_gmr_wrong_answer",
    "C66_wt_gmr_partial",
    "C66_csa_refuted",
    "C66_csa_partial"
   ],
   "note": "Proved for 22 classes without restriction. wt_gmr: refuted for histories with copy construction (the copy keeps the original's m_ips pointer), proved for all others. csa_wt/csa_sada with a pointer keeping ISA strategy: refuted for histories with moves, proved for all others; proved without restriction for the default isa_sampling. Member contents are abstract values, load() and iterators are not modelled."
  },
  {
   "property": "C67",
   "status": "partial",
   "theorems": [
    "C67_wt_int",
    "C67_wt_pc",
    "C67_wm_int",
    "C67_wt_rlmn",
    "C67_wt_gmr_rs",
    "C67_wt_ap",
    "C67_sd_vector",
    "C67_dac_vector",
    "C67_alphabet",
    "C67_text_order_sampling",
    "C67_fuzzy_sa_sampling",
    "C67_rmq_sada",
    "C67_rmq_sct",
    "C67_nearest_neighbour_dictionary",
    "C67_cst_sada",
    "C67_cst_sct3",
    "C67_cst_fully",
    "C67_csa_isa_sampling",
    "C67_inv_perm_support",
    "C67_inv_multi_perm_support",
    "C67_bp_support_g",
    "C67_wt_gmr_partial",
    "C67_csa_partial"
   ],
   "note": "Theorems for 21 classes without restriction; wt_gmr is proved for histories without copy construction and csa_wt/csa_sada with a pointer keeping inverse sampling for histories without moves, because C66 refutes those members; serialize and load themselves are right for all of them. dac_vector_dp, whose load recomputes m_size, is not covered."
  },
  {
   "property": "C68",
   "status": "partial",
   "theorems": [
    "C68_select_support_mcl",
    "C68_select_support_mcl_no_leak",
    "C68_dfs_iterator_refuted",
    "C68_dfs_iterator_dangling",
    "C68_dfs_iterator_leak",
    "C68_dfs_iterator_partial"
   ],
   "note": "select_support_mcl is proved for every history. For the depth first iterator the property is false (copies of begin() share the owned cache) and proved for iterators without a cache; std::swap of iterators is not modelled. Other classes with raw memory (int_vector) are not in this model."
  },
  {
   "property": "C69",
   "status": "proved",
   "theorems": [
    "C69_int_vector_memory",
    "C69_int_vector_no_leak",
    "C69_int_vector_resize"
   ],
   "note": "memory_manager::resize/clear and the special members of int_vector over a heap of word lists; hugepages and allocation failure are not modelled; entries after resize are C05"
  },
  {
   "property": "C70",
   "status": "partial",
   "theorems": [
    "C70_usage_and_events",
    "C70_peak_bounds",
    "C70_peak_refuted",
    "C70_peak_partial",
    "C70_open_event_refuted"
   ],
   "note": "usage, ended events and bounds of peak() are proved for histories that do not start or stop the monitor inside an event scope (inside one the code is undefined: C70_open_event_refuted). peak() = largest usage is false in general (C70_peak_refuted) and proved for changes further apart than the granularity. One thread; the writers of the log are not modelled."
  },
  {
   "property": "C71",
   "status": "proved",
   "theorems": [
    "C71_mutual_exclusion",
    "C71_serializable",
    "C71_no_deadlock",
    "C71_record_threads"
   ],
   "note": "for record after start and for any code that runs entirely between lock and unlock; sequentially consistent steps. start, stop, event() and the allocator itself touch shared state outside the lock and are not covered"
  },
  {
   "property": "C72",
   "status": "partial",
   "theorems": [
    "C72_names_distinct",
    "C72_processes_distinct",
    "C72_digit_part_refuted",
    "C72_threads_refuted"
   ],
   "note": "proved for one thread per process and name parts that do not start with a digit and contain no slash; refuted for other name parts (C72_digit_part_refuted) and for two threads (C72_threads_refuted). dirname is an argument"
  },
  {
   "property": "C73",
   "status": "partial",
   "theorems": [
    "C73_keyed_store_partial",
    "C73_no_leftover_partial",
    "C73_type_hash_refuted",
    "C73_type_hash_leftover_refuted"
   ],
   "note": "proved for histories without add_type_hash and keys without a slash, starting with no files; with add_type_hash both parts are refuted (C73_type_hash_refuted, C73_type_hash_leftover_refuted). Successful writes are assumed"
  }
 ]
}