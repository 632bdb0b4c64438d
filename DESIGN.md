# Formal model of sdsl-lite in Rocq: design

## 1. Approach

The model is a set of total, computable Gallina functions that transcribe the
C++ functions of /repo one by one.  Every definition of the model carries a
comment with the file and lines it transcribes.  Properties are theorems about
these functions, stated against small independent specifications (plain lists of
booleans, lists of numbers, stacks, finite maps) and proved for all inputs by
induction, loop invariants and refinement.

Conventions

* A `uint64_t` is an `N`; operators that can wrap are written with an explicit
  `mod 2^64` (`wadd`, `wsub`, `wmul`, `shl`, `wnot` in `Base.v`).
* Indices, sizes, offsets and lengths are `nat`.  Index arithmetic that cannot
  wrap for an object that fits in memory is done in unbounded `nat`; where the
  code relies on wrap-around of an index (for example `util::prev_bit`, whose
  loop ends because a word index wraps) the wrap is explicit.
* Memory is a `list N` of 64-bit words.  Loads and stores return `option`:
  an access outside the allocated words is `None`, never a default value.  So a
  theorem saying that a function returns `Some r` also says that it stays
  inside its memory.  Shifts by >= 64 (undefined behaviour in C++) are `None`
  wherever the shift distance is not a constant or masked (`shl_c`, `shr_c`).
* Loops are structural recursions over a list or over a fuel whose exhaustion is
  `None`, which the statements exclude.
* Higher layers (sd_vector, rrr_vector, wavelet trees, ...) use the *proved
  abstraction* of the layer below (a bit vector is a `list bool`, an int_vector
  is a `list N` together with a width, rank/select are the mathematical rank and
  select) because C04, C12-C16 establish that the lower layer implements
  exactly that abstraction.
* Compiler built-ins (`__SSE4_2__`, `__BMI2__` paths) are not modelled; the portable
  paths of bits.hpp are.

Files ending in `Spec` contain only specifications, files `Prop*.v` contain only
the property theorems (each closed by `exact` of a lemma), a non-vacuity example next
to each of them, and `Print Assumptions`.

## 2. Plan per property

C01 bits: model the SWAR code and the tables of bits.cpp literally
  (generated `Tables.v`); prove the byte-wise decomposition, finite byte tables by computation.
C02 same, automaton over 2-bit blocks with carry, then induction over the words.
C03 word memory model; bit-level characterisation of read/write.
C04 refinement of `list N` elements by word memory; histories by induction.
C05 model of memory_manager::resize incl. the reallocation test. Expected: the
  padding-word part is refuted (resize that does not change the number of words does not
  allocate the extra word).
C06 byte stream model, header + words little endian, block loop.
C07 model of the comparison loops. Expected: `==` ignores the width (refuted against doc).
C08 iterators as (word,offset,len), laws by arithmetic.
C09 in-place loops with an invariant "read pointer ahead of write pointer".
C10 word pattern filling, periodicity of lcm(width,64).
C11 scanning loops; next_bit is expected to be refuted for dirty padding bits.
C12-C14 rank directories: packed counters as sums of disjoint fields.
C15, C16 select directories, both constructors.
C17-C20 Elias-Fano over lists, select on the high part.
C21 combinatorial number system over arbitrary n, induction over positions.
C22 block/superblock directory with inversion on top of C21.
C23-C26 bit stream coders; C25 holds for the encodable values only and is refuted for some values >= 2^45 (44945570212853).
C27-C29 sampled/levelled vectors; C27 refuted for narrow value types.
C30-C34 wavelet trees by induction over levels / code tree. C32 expected refuted at vlb = 2^levels.
C35 state machine with a file as byte list; simulation relation to a list.
C36-C39 state machines with representation invariants.
C40-C43 suffix order theory over lists; backward search invariant; Kasai invariant.
C44-C47 combinatorial specs and block-wise scanning. C55: every LCP representation returns the stored value. C56: level-order invariant of the treap (one maximum per cell and level), then induction over levels for count and a priority-queue invariant for the iterators. C57: the occurrences of w in the text mirror those of the reversed w in the backward text, so the symbols in front of the former are the symbols behind the latter; the rows of an interval are sorted by the symbol behind the pattern. Range minimum on parentheses: coverage invariant (last minimal position of the scanned prefix) through blocks and tree; rmq_succinct_sct: the construction stack gives the excess in front of each opening parenthesis, and an element stays on the stack exactly while nothing smaller follows. rmq_succinct_sada: the loop with three visits emits an inductively defined sequence; by induction on it the ends of the leaves are the occurrences of 10 and the last minimum between two of them is the end of the leaf of the best element.
C58: the supercartesian tree of the LCP array; every navigation operation is characterised by the previous/next smaller value of a row, word scans over the first-child vector by induction over words, then nodes = LCP intervals.
C59: nodes = maximal row ranges sharing a prefix (node_label); child/edge by the order of the rows reached after d steps of psi, suffix links by the range minimum, Weiner links by one backward-search step.
C60: the bits of bf at the first-column positions of the runs; rank of bf inside the block of one symbol counts its run heads (induction over the sequence), every query reduces to the head of the run around a position.
C61: model the three iterator classes of cst_iterators.hpp over the cst_sct3 model of C58 and the loops over them; specify the orders as inductive relations over LCP intervals (SpecCstIter.v); prove by induction on the interval size, with the invariant that the cache holds the ancestors above depth 128. Partial: not for one row, and at most 2^32 rows.
C62: model the constructor and the queries of wt_ap over the proved answers of the class and offset wavelet trees; prove that the class loop reaches every symbol (the capacities 2+4+...+2^k cover sigma - log2 sigma symbols), that singleton classes hold one symbol each, and that (class, offset) determines the symbol; reduce each query to counting in the sequence.
C63: model the constructor and the queries of wt_gmr_rs with the int_vector widths of the constructor; prove that B is the unary code of the occurrences per (symbol, block) cell and E the stable sort of the positions by symbol, that every cell of E is sorted, and reduce both search variants (linear below 50, std::lower_bound/binary_search above) and select to counting in the sequence.
C64: model the two passes of the constructor with the chunk-local done vector and the relative back pointers, and operator[]; prove by simulation that both equal inv_perm_support (C38) on the global permutation v[i] + chunk start.
C65: model the constructor of wt_gmr (B, X, the chunk permutations with the int_vector widths of the code, the inverse permutation support of C64) and its queries; prove that B and X are the unary codes of the cells (symbol, chunk) and (chunk, symbol), that the permutation of a chunk is the stable sort of its positions by symbol, and reduce every query to counting in the sequence.
C66: model objects as contents of data members plus supports with raw pointers on a heap of addresses; transcribe the bodies of the copy/move constructors, assignments and swap of 24 classes statement by statement; specify a history of operations by plain values per object; prove by simulation that after every history each object with a specified value reads as that value through every member and every support pointer. Refuted for two families (wt_gmr copy construction, csa_wt/csa_sada moves with a pointer keeping ISA strategy), with partial theorems for the histories without the faulty member.
C67: model serialize as the list of member records it writes and load as the statements that read them into an existing object of the C66 heap, with the pointer argument of each support's load; specify a file as a queue of values; prove by simulation that every history with saves and loads keeps the values, and that nothing is left over in a file all of whose values were loaded.
C68: model memory as a map from block numbers to contents, objects with owning raw pointers, and the special members as statements (delete, new, pointer copy, null, swap) whose undefined uses get stuck; prove by an ownership invariant (every pointer of a living object is allocated, no two pointers share a block, every allocated block is owned) that every history runs, keeps values and leaks nothing. Holds for select_support_mcl; refuted for the depth first iterator, with a partial theorem for iterators without a cache.
C69: model the heap as a map from block numbers to lists of words, each int_vector as size, width and owning pointer, and resize, clear, the constructors, assignments and swap as they act on it, with out-of-bounds, freed and double-freed accesses undefined; prove by an ownership and length invariant plus a sum invariant for the memory_monitor count that every history runs, keeps values, leaks nothing and counts the living bytes.
C70: model the memory monitor (usage, stack of open events, completed events, granularity) with the clock as input of every operation; prove by an invariant over histories that the usage is the sum of the recorded changes, that ended events carry the usage at their end, and that peak() lies between the final and the largest usage; peak() = largest usage is refuted and proved for changes spaced by more than the granularity.
C71: model threads whose calls run step by step between lock and unlock of the spin lock, with a schedule choosing the thread of each step; prove by an invariant over all schedules mutual exclusion, that the calls take effect one after the other in an interleaving of the programs, that all threads can always finish, and for the steps of memory_monitor::record that the usage is the sum of all changes.
C72: model id(), to_string and tmp_file on character lists with a 64-bit counter; prove that decimal printing is injective and the name can be parsed back, hence names are distinct within a process and between processes; refute it for name parts that start with a digit and, with id++ as two steps, for two threads.
C73: model the cache functions on a map from file names to contents shared by several configs, with file_map as an association list; prove by an invariant over histories (every registered name is the default name, and default names are injective in config and key) that each config is a map from keys to last stored values and that no file is left behind; refute both for add_type_hash.
C48 interleaved layout. C49 limbs. C50 finite map. C51 follows from specs.
C52 word loops of flip/and/or/xor. C53 wt_algorithm.hpp over both integer wavelet trees, stack loops by induction over the height of the node.

## 3. Trusted base

* Coq 8.16.1 kernel (and coqchk).
* Axioms: see section 4 (target: none, "Closed under the global context" for all).
* The transcription C++ -> Gallina, made by hand and cited line by line.

## 4. Assumptions printed

Every theorem named in MANIFEST.json has a `Print Assumptions` beneath it in its
`Prop*.v` file, and every one prints "Closed under the global context": no axiom, not
even of the standard library, is used.  coqchk over the whole build additionally lists
seven constants of `Coq.ssr.ssrunder.Under_rel.*`, which are the opaque module
parameters of the standard library's own ssreflect plugin file; no theorem depends on them.

## 5. What is modelled, what is not

Modelled (each definition cites its lines):

| part of /repo | file | abstraction |
|---|---|---|
| bits.hpp (portable paths) | Tables.v, Bits.v | words as N < 2^64, shifts by >= 64 are `None` |
| int_vector.hpp, bit_vector | IntVector.v | memory as list of words, out of bounds = `None`; allocation never fails |
| rank_support_v, v5, scan, rank patterns | RankSupport.v | word level |
| select_support_mcl, scan | SelectSupport.v | over the bit_vector abstraction and `avec` for int_vector<0> |
| sd_vector(+builder, rank, select) | SdVector.v | low part `avec`, high part bit list, C15's select |
| coder_elias_gamma/delta, comma | Coder.v, CoderComma.v | word level |
| enc_vector, vlc_vector | EncVector.v | word level over the coders |
| rrr_vector, rrr_helper | RrrHelper.v, RrrVector.v | any block size, n-bit numbers as N |
| sorted_stack_support, sorted_multi_stack_support | Stacks.v | word level |
| nn_dict_dynamic | NnDict.v | word level |
| inv_perm_support | InvPerm.v | over bit/rank abstraction |
| int_vector_buffer | IvBuffer.v | file = list of bytes; no I/O errors |
| wt_int, wm_int | WtInt.v, WmInt.v | bit vector + rank + select abstraction; temporary files as arrays |
| bit_vector_il, rank_support_il, select_support_il | BvIl.v | word level; t_bs = 2^k, k >= 6 |
| uint128_t (portable class), uint256_t | Wide.v | words; inside uint256_t 128-bit numbers as N, with a flag for the native type |
| dac_vector.hpp | Dac.v | both classes: construction, operator[], size; the optimiser of dac_vector_dp over abstract costs |
| memory_management.cpp (hugepage allocator: mm_alloc, mm_free, mm_realloc, hsbrk and the block helpers) | Hugepage.v | addresses are word indices of the arena; the free set is a list sorted by insertion of (size field, address) pairs; mmap/init, the memory_monitor and locking are not modelled; memcpy either byte-wise or, with [strict], undefined on overlap |
| ram_fs.cpp, ram_filebuf.cpp | RamFs.v | std::map as an association list; stream pointers as offsets, a get pointer into a reallocated vector is a distinct value; the free functions' disk branches, the mutex and two streams open on one file are not modelled |
| rmq_support_sparse_table.hpp | Rmq.v | the table rows are lists whose elements are stored modulo 2^width; bits::hi is Nat.log2 |
| bp_support_sada.hpp, bp_support_algorithm.hpp/.cpp (near_fwd_excess, near_bwd_excess, tables) | Bp.v | the byte tables are functions of the eight bits with the index range of the arrays; excess values are integers; bits behind the sequence are an arbitrary function, reading behind the last allocated word is undefined; find_close_cache etc. (USE_CACHE) not modelled |
| csa_alphabet_strategy.hpp (constructors, char2comp, comp2char, C, sigma of byte_alphabet, succinct_byte_alphabet, int_alphabet), lib/csa_alphabet_strategy.cpp | Alphabet.v | copy/move/serialize not modelled |
| csa_wt.hpp, csa_sada.hpp, csa_bitcompressed.hpp, suffix_array_helper.hpp (lf, psi, bwt, isa, text, first_row_symbol), suffix_array_algorithm.hpp (backward_search, forward_search, count, locate, extract), construct_bwt.hpp | Csa.v | wavelet tree and enc_vector replaced by the sequences they are proved to represent; iterators, bidirectional_search, serialize not modelled |
| csa_sampling_strategy.hpp (sa order, text order, fuzzy, bwt; isa, text order support, fuzzy support), lib/construct_isa.cpp, the cache_config constructors | CsaSample.v | the suffix array is given (construct_sa is not modelled), files replaced by their contents |
| wt_pc.hpp, wt_helper.hpp (`_byte_tree`, `_int_tree`), wt_huff.hpp, wt_blcd.hpp | WtPc.v | constructor (character counts, Huffman and balanced shapes, both layouts, code words, bit vector), access, inverse_select, rank, select, interval_symbols, lex_count, lex_smaller_count. The priority queue is a sorted list. Not modelled: wt_hutu, serialization, node traversal API |
| louds_tree.hpp | Louds.v | constructor (with the breadth-first queue of cst_iterators.hpp), root, nodes, is_leaf, degree, child, parent, id. The suffix tree it is built from is its ordered tree of nodes. Not modelled: swap, serialize, load |
| construct_lcp.hpp, lib/construct_lcp.cpp, lcp_support_sada.hpp, lcp_byte.hpp, lcp_wt.hpp | Lcp.v | construct_lcp_kasai, construct_lcp_PHI, construct_lcp_semi_extern_PHI; constructor and operator[] of _lcp_support_sada, lcp_byte and lcp_wt. Cache files and buffers are lists. Not modelled: construct_lcp_go, goPHI, bwt_based and bwt_based2; lcp_support_tree and tree2; lcp_bitcompressed, lcp_dac and lcp_vlc, which only forward to int_vector, dac_vector and vlc_vector |
| k2_tree.hpp, k2_tree_helper.hpp | K2Tree.v | construction from a matrix and from edges (breadth-first queue, in-place chunk sort), adj, neigh, reverse_neigh, range. Height is an argument with size <= k^height; floor(i/(double)n) and std::pow are exact (values below 2^53). Not modelled: the file constructor's reading of the two int_vectors, copy/move/swap, serialize |
| k2_treap.hpp, k2_treap_helper.hpp, k2_treap_algorithm.hpp | K2Treap.v | `construct` (levels, maxima, partition, differences), `size`, `root`, `children`, `count`, `top_k`, `range_3d`. `m_bp` and `m_maxval` are their proved abstractions (C12, C29), std::partition is any function that splits by the predicate. Not modelled: serialize/load, construction from files |
| coder_fibonacci.hpp, lib/coder_fibonacci.cpp | CoderFib.v | encoding_length, encode (value and vector), decode (n values, running sums, vector), decode_prefix_sum with its tables; not decode1 and the end_idx overload |
| suffix_array_algorithm.hpp:250-415 | Bidir.v | bidirectional search on csa_wt; the wavelet tree is the sequence with lex_count answered as proved in C31/C34 |
| bp_support_sada.hpp (rmq, rmq_open, rr_enclose, double_enclose), bp_support_algorithm.hpp (near_rmq), suffix_tree_helper.hpp (construct_supercartesian_tree_bp, construct_supercartesian_tree_bp_succinct for a random access container), rmq_succinct_sct.hpp (constructor, operator()) | BpRmq.v | the sorted_stack_support is a list of indices with its push preconditions checked (C36 proves the structure itself, below 2^63 elements); rank and select of the parentheses vector by their proved specification; rmq_open with r = size() reads behind the sequence and is excluded; the int_vector_buffer overload (sorted_multi_stack_support) is not modelled |
| rmq_succinct_sada.hpp (constructor, operator(), size) | RmqSada.v | rank and select of the pattern 10 by their proved specification (C12, C15); the helper rmq_succinct_sct is the one of BpRmq.v with its own block parameters; copy, move, swap and serialisation are not modelled |
| cst_sct3.hpp, suffix_tree_helper.hpp:231-289 | Cst.v | the construction of the parentheses and first-child vectors, root, node, leaves, parent, select_child, degree, sibling, lca, depth, node_depth, id, inv_id, tlcp_idx. Rank/select on bit vectors, csa and lcp are their proved abstractions. Not modelled: iterators, loading and storing |
| cst_sct3.hpp:756-813, 831-846, 932-993, suffix_tree_helper.hpp:294-307 | CstText.v | child by symbol, edge, sl, wl, get_char_pos over the CSAs of Csa.v. The out-parameter char_pos of child is not modelled |
| wt_rlmn.hpp | Rlmn.v | constructor (both alphabets), operator[], rank, inverse_select, select. bl, bf and the wavelet tree of the run heads are their proved abstractions; m_C and m_C_bf_rank are unbounded. Not modelled: copy/move/swap, serialize, load, iterators |
| wt_ap.hpp | Wtap.v | constructor, operator[], rank, inverse_select, select. m_char2class, m_class and m_offset are the sequences they store with the proved wavelet tree answers; the 8-bit width of classes is justified by C62_construct. Not modelled: copy/move/swap, serialize, load, iterators, the temporary files (C35) |
| wt_gmr.hpp:290-617 (wt_gmr_rs) | Gmr.v | constructor, operator[], rank, inverse_select, select. B is a list of bits with proved select answers, E a list; std::lower_bound/binary_search by contract (sorted input required); iterator arithmetic on indices. Not modelled: copy/swap, serialize, load |
| wt_gmr.hpp:49-246 (inv_multi_perm_support) | MultiPerm.v | constructor and operator[]; rank of the marks by its specification; m_perm holds the same values as iv. Not modelled: copy/move/swap, serialize, load, iterators |
| wt_gmr.hpp:643-925 (wt_gmr) | Gmr2.v | constructor, operator[], rank, inverse_select, select, with the inverse permutations of MultiPerm.v. B and X are lists of bits with proved select answers, perm a list; std::lower_bound by contract. Precondition: symbols below 2^63 (the shift 1ULL << (hi+1) is undefined otherwise, modelled as an error). Not modelled: copy/swap, serialize, load |
| special members of wt_int, wt_pc, wm_int, wt_rlmn, wt_ap, wt_gmr_rs, wt_gmr, inv_perm_support, inv_multi_perm_support, sd_vector, dac_vector, dac_vector_dp, succinct_byte_alphabet/int_alphabet, _text_order_sampling/_bwt_sampling, _fuzzy_sa_sampling, rmq_succinct_sada, rmq_succinct_sct, nearest_neighbour_dictionary, bp_support_g, cst_sada, cst_sct3, cst_fully, csa_wt/csa_sada; util.hpp:303-321 | Life.v | each body as its list of statements, with `*this` and the other object on a heap. A data member is one value of an arbitrary type; a support is what it was built for and a pointer. Not modelled: memory exhaustion inside a member, the scratch buffer m_psi_buf, iterators. SpecLife.v is the specification (objects are values). |
| serialize and load of the same classes except dac_vector_dp; lcp.hpp:183-212 (load_lcp) | LifeIO.v | the order in which members are written and read and the vectors the supports are attached to; one record per member. Not modelled: the bytes of one member (C06 for int_vector), the structure tree and the returned byte counts, stream errors, dac_vector_dp::load (it recomputes m_size). SpecLifeIO.v is the specification (a file is a queue of values). |
| select_support_mcl.hpp:117-206 (copy, move, swap, destructor), cst_iterators.hpp:46-109 (ownership of the cache) | Own.v | each body as its list of statements over a memory of blocks. An array is one block with one content; the other members are one value. Not modelled here: init_slow/init_fast (their arrays are the constructed value), load, allocation failure. Specified by SpecLife.v (objects are values) and the statement of C68. |
| memory_management.hpp:307-388 (free_mem, realloc_mem, resize, clear), int_vector.hpp:1249-1323 (constructors, assignments, destructor, swap) | IvMem.v | heap of word lists; realloc always moves and fills with junk; words are abstract. Not modelled here: hugepages, allocation failure, the bits inside words (C01-C05), compile-time width, event log of the monitor. Specified by SpecIvMem.v; after resize the history spec says only that the vector lives; what resize keeps is C69_int_vector_resize (per word) and C05 (entries). |
| memory_management.hpp:50-199 (memory_monitor: start, stop, record, event, mm_event_proxy, peak) | MemMon.v | time stamps are arbitrary integers given with each operation; proxies live on a stack. Not modelled: the spin lock (one thread), copies of proxies, the JSON and HTML writers. Specified by SpecMemMon.v. |
| util.hpp:323-342 (spin_lock), memory_management.hpp:171-189 (record, locked part) | SpinLock.v | any number of threads, sequentially consistent steps, body as a list of steps on the shared state. Not modelled: weak memory, start/stop and the test of track_usage, which are outside the lock. Specified by SpecSpinLock.v (interleavings). |
| util.hpp:237-246, 613-619 (id, to_string), io.cpp:120-129 (tmp_file) | TmpFile.v | decimal digits by the standard library's N.to_uint; the directory (config.dir or dirname of a file) is an argument; pid is an argument. No separate specification: the claim is NoDup. |
| io.cpp:91-118, io.hpp:545-631 (cache functions), util.cpp:145-151 (delete_all_files), config.cpp:6-11 (default id) | Cache.v | file contents are values of any type; opening for writing succeeds and an existing file loads, without regard to the type it is loaded into; the type hash is an argument; the files are empty at the start. Specification: SpecCache.v. |
| cst_iterators.hpp | CstIter.v | dfs iterator (constructor, ++, skip_subtree, ==, ancestor cache, 32 bit stack size), bottom up iterator, bfs iterator; begin/end of cst_sct3. Copies of iterators share their cache in the code; the model has value semantics |
| wt_algorithm.hpp | WtAlg.v | the generic algorithms on the two integer trees |

Not modelled: SSE4.2/BMI code paths, exceptions from allocation or I/O, serialisation to
disk except int_vector and int_vector_buffer, move/copy special members except where a
property names them, `assert`s (compiled out), iterators and type traits beyond int_vector,
structure_tree, memory monitor.  Container sizes are unbounded naturals except where a
wrap-around is observable; then it is explicit (`mod 2^64`).

## 6. Findings (statements that are false of the code, proved as `_refuted`)

* bits::cnt32(0xFFFFFFFF) is 0. (C01)
* int_vector: padding bits of the last word are visible through data(), `==` ignores the width,
  bit_compress on a fixed width, util::set_to_value shifts by 64, next_bit sees stale padding. (C05, C07, C09-C11)
* rank(size()) after resize 60 -> 64 reads past the directory. (C13, C14)
* sd_vector_builder accepts repeated positions; the iterator constructor fails on an empty range. (C17, C18)
* Elias codes: decoding the 64-bit code of 0 shifts by 64, and the prefix-sum decoder reads one word past an exact allocation. (C23, C24)
* enc_vector: operator[] reads past the code; 32-bit decreasing input is not restored. (C27)
* sorted_multi_stack_support loses duplicates in one case. (C36)
* nn_dict_dynamic next/prev shift by 64 or more. (C37)
* int_vector_buffer keeps dirty padding on open. (C35)
* wt_int with 64-bit symbols shifts by 64 in the constructor; wm_int does in rank, symbol_lte/gte,
  restricted_unique_range_values and range_search_2d. (C30, C33, C53)
* range_search_2d clips vrb to 2^max_level instead of 2^max_level - 1, and so reports wrong points for
  vlb = 2^max_level. (C32)
* bit_vector_il's constructor reads past a bit_vector resized from 60 to 64 bits. (C48)
* uint256_t << 0 shifts a native 128-bit number by 128 when MODE_TI is on. (C49)
* dac_vector: the constructor leaves m_max_level uninitialised for an empty container (harmless: no index is valid). (C29, note)
* hugepage allocator: free blocks are keyed by size | 1, so a request that is 1 modulo 8 (17 bytes) is served with a block one
  byte too small and the client's last byte overwrites the block footer. memory_manager itself only asks for multiples of 8. (C39)
* hugepage allocator: mm_realloc copies the *new* size with memcpy; when the old block lies just below the new one, source and
  destination overlap, which is undefined, and bytes past the old allocation are read. (C39)
* hugepage allocator: a request of 2^64 - 16 bytes wraps around and returns a 32-byte block. (C39)
* ram_fs::rename(x, x) deletes x; renaming a missing file succeeds and replaces the target by an empty file. (C50)
* ram_filebuf opened with app writes over the start of the file; seekp(off, cur) is relative to the get pointer, which after a
  reallocating write dangles. (C50)
* disk_file_name("@@x") is "@x", which is again a RAM name. (C50, note)
* rmq_support_sparse_table's constructor writes m_table[0] although no table exists, for a two-element container whose values
  are in the wrong order (v[0] > v[1] for the minimum). (C45)
* bp_support_sada with t_med_deg = 1: bwd_excess_in_med_block returns -1 for excess 0 when it stops in front of block 0, so
  find_open and enclose can return 0 although the partner is another position of block 0. (C44)
* bp_support_sada with a block size that is not a multiple of 8: the last loop of near_bwd_excess reads a bit twice and
  find_open returns wrong positions. (C44)
* bp_support_sada::level_anc(0, 0) returns size() instead of 0. (C44)
* bp_support_sada on unmatched parentheses: find_close scans the padding behind the sequence and may return a position >= size(),
  or reads the missing right sibling of the last medium block; find_open(0) of a closing parenthesis returns 0. (C44)
- C40: a pattern with a 0 in its interior is matched cyclically by backward_search (`C40_interior_zero_refuted`), and
  forward_search never finds a pattern that contains the terminating 0 (`C40_forward_zero_refuted`).
- C42: `_bwt_sampling` stores suffix array values but its operator[] multiplies them by the density
  (`C42_bwt_sampling_refuted`).  `_fuzzy_isa_sampling_support::sample_leq` may return a sample behind the queried
  position; isa_of_csa_psi then walks i - pos modulo 2^64 steps (`C42_sada_fuzzy_refuted`).
- C41: bwt_of_csa_wt::select calls a member `select` that csa_wt does not have (it does not compile when instantiated);
  the model uses select_bwt's body.
- **wt_pc, depth-first layout** (`byte_tree<true>`, `int_tree<true>`): the visiting loop stores the first visited child as child[0] and
  the second as child[1] only if its parent is also the last visited parent. Depth-first visits the right child first, so the children of
  a node whose right child is a leaf are swapped. Access, rank and select still agree with each other, but lex_count, lex_smaller_count
  and the order of interval_symbols are wrong (`C34_dfs_lex_refuted`); `size(v)` also takes the first child's position in this layout.
- **wt_pc, default-constructed object**: the byte strategy's leaf and path arrays are not initialised, so rank on an empty tree reads
  indeterminate values. The model only builds trees of non-empty sequences.
- **louds_tree::swap / serialize**: swap names `tree.m_select1` and serialize calls `m_bv_select1(out, child, "select1")`; neither member
  nor call operator exists, so both fail to compile when instantiated. The constructor reserves 4 bits per leaf, which only suffices if
  no inner node has a single child (`C46_unary`).
- **_lcp_support_sada::swap** swaps the data and its select support but not `m_csa`, so after swapping the supports of two
  different texts each keeps asking the suffix array of its old text. The model has no swap; the theorems are about one object.
- **k2_tree::range on an empty relation**: adj, neigh and reverse_neigh test for empty bit vectors, range does not, and reads `k_l[0]` of
  an empty vector (`C47_range_empty_refuted`).
- **k2_tree / k2_treap copy constructors** are written `*this = tr` with `const k2_tree& tr`; the available assignments take
  `k2_tree&` or `k2_tree&&`, so the copy constructors do not compile when instantiated.
- **k2_tree height** is `ceil(log(size)/log(k))` in double precision: for sizes next to a power of k above about 2^49 the quotient can
  round down to the exponent and the tree is one level too low. The theorems take the height as an argument with size <= k^height.
- C56 (`C56_origin_refuted`): a `k2_treap` whose only point is (0,0) has t = 0; `root()` then reads `m_coord[t-1]`, so every query on it is undefined behaviour although `size()` is 1.
- C56 (`C56_narrow_refuted`): `construct` marks removed points with `t_e(M,M,M)`, M = k^t. When k^t does not fit the coordinate type of the tuples (for k = 2: a coordinate with the top bit of its type set, e.g. >= 2^31 for uint32_t) the mark becomes (0,0,0) and a real point (0,0) of weight 0 is silently removed.
- C56 (`C56_duplicates_refuted`): points with equal coordinates are kept only as long as there are levels left; the others are dropped. Hence the hypothesis `distinct_points`.
- C25: coder::fibonacci::encode shifts by the negative distance 64-j (undefined behaviour) when the remainder of the value becomes 0 at a Fibonacci number with index j > 64, e.g. for 44945570212853 (`C25_fibonacci_shift_refuted`). `fib_encodable` in SpecFib.v describes the values for which this does not happen; it holds for everything below 44945570212853 (`C25_fibonacci_small_encodable`). decode_prefix_sum keeps the number of bits in an int32_t, so the theorem about it requires fewer than 2^31 bits.
- C57 (`C57_wide_symbol_refuted`): bidirectional_search takes the symbol as `csa_wt<>::char_type`, i.e. uint8_t, whatever the alphabet of the index is. On an integer alphabet pattern symbols are silently reduced modulo 256: on the text 257 3 1 2 the pattern 257 3 is not found. The theorems require pattern symbols below 256.
- C59 (`C59_wl_zero_refuted`): cst_sct3::wl(v, 0) follows the text cyclically: for the leaf of the whole text it returns the leaf of the terminating 0 although no occurrence of 0 is followed by the text. Documented result would be the root. Hence ch <> 0 in `C59_wl_partial`.
- C61 (`C61_dfs_single_refuted`): in the suffix tree of the empty text the root is a leaf, and the depth first iterator visits it twice; the documentation promises one visit for a leaf. The 32 bit depth counter wraps below 0 on the way.
- C68 (`C68_dfs_iterator_refuted`, `C68_dfs_iterator_dangling`, `C68_dfs_iterator_leak`): cst_dfs_const_forward_iterator (cst_iterators.hpp:46-109) owns its cache through a raw pointer and deletes it in the destructor, but has only the compiler-generated copy operations (its own copy constructor is commented out). Copying begin() of a tree, e.g. passing it by value or returning it from a function, makes two owners: the second destructor deletes the cache again, and a copy that outlives the original reads deleted memory; assigning another iterator to it leaks the cache. Iterators without a cache (`C68_dfs_iterator_partial`) are not affected.
- C70 (`C70_open_event_refuted`): an event proxy that is still alive at memory_monitor::stop() takes the top of an empty stack in its destructor; one that is alive at a second start() removes the bottom event, and the next allocation of an int_vector then works on the top of an empty stack.
- C70 (`C70_peak_refuted`): memory_monitor::peak() can miss a peak completely: a change within the granularity (20 ms by default) overwrites the last point of the log. It never exceeds the real peak (`C70_peak_bounds`).
- C71 (not modelled): memory_monitor::event reads current_usage, and record, start and stop access track_usage and the stacks, without the lock; the hugepage allocator has no lock at all, so with use_hugepages() two threads that resize int_vectors race.
- C72 (`C72_threads_refuted`): util::id() is documented as unique inside the process but increments a plain static uint64_t; two threads that construct structures at the same time can get the same id and so the same temporary file.
- C72 (`C72_digit_part_refuted`): tmp_file(config, "2") with id 1 and tmp_file(config, "") with id 12 are the same file; the name parts used by the library all start with an underscore.
- C73 (`C73_type_hash_refuted`): store_to_cache with add_type_hash registers the file under the key without the hash; a later store under the plain key overwrites the file of the typed value, and a typed load then reads the wrong content.
- C73 (`C73_type_hash_leftover_refuted`): storing two types under one key keeps only the second file in file_map, so delete_all_files leaves the first on disk.
- C66 (`C66_wt_gmr_refuted`, `C66_wt_gmr_wrong_answer`): the copy constructor of wt_gmr (wt_gmr.hpp:769-789) copies m_ips with `m_ips = wt.m_ips` but, unlike for the select supports, does not call set_vector(&m_perm). The copy answers operator[] and inverse_select through the permutation of the original: freed memory once the original is destroyed, the wrong permutation once it is assigned to. The assignment operator goes through swap_support and is not affected (`C66_wt_gmr_partial`). wt_gmr has no move constructor, so returning one by value or growing a std::vector of them copies.
- C66 (`C66_csa_refuted`): the move assignments of csa_wt (csa_wt.hpp:361-370) and csa_sada (csa_sada.hpp:260-270), and so their move constructors, move m_isa_sample without set_vector(&m_sa_sample); copy() does call it. With text_order_isa_sampling_support or fuzzy_isa_sampling_support, which keep a pointer to the SA samples, isa[] of the moved-to index reads the samples of the moved-from object. The default isa_sampling keeps no pointer and is not affected (`C66_csa_isa_sampling`); copies and swaps are right (`C66_csa_partial`).
- C66 (not modelled): louds_tree::swap (louds_tree.hpp:180-184) names tree.m_select1 and tree.m_select0, which do not exist, and the copy constructors of k2_treap and k2_tree assign a const object although their operator= takes a non-const reference: these members do not compile once instantiated.
