# Formal model of tudocomp in Rocq/Coq — design

## Method

* Every modelled C++ function becomes a total, computable Gallina function; each definition cites
  the file and lines it models and says where it simplifies. Loops become structural recursion or
  recursion on explicit fuel with a distinct out-of-fuel outcome (`None`); theorems prove that the
  stated fuel suffices.
* Integers: `N`/`nat` where no overflow can matter (the theorems then carry the size bound, mostly
  `length text < 2^32`, the range of `len_t`), and explicit `mod 2^w` where the C++ type wraps and
  the property is sensitive to it. Bytes are `N` below 256. Undefined behaviour (out-of-bounds
  access, over-wide shifts, uninitialised reads, failed assertions of the debug build) is `None`, so
  a theorem that says "= Some .." also says the code stays inside its arrays.
* Streams: a file is a `list N` of bytes; a stream state is a record.
* `Xxx.v` contains the model, `XxxSpec.v` the small specification (written without the model's
  helpers), `XxxProofs.v` lemmas, `PropXxx.v` the property theorems, each followed by
  `Print Assumptions` and by examples that show that its hypotheses can be met.
* A property that is false of the code as written is proved false (`.._refuted`), its statement in
  properties.jsonl is reworded to the exact domain, and that is proved beside it.
* Randomness, time, memory addresses, the C++ standard library's freedom (unstable sort order, heap
  layout, unordered iteration) are parameters over which the theorems quantify.

## Plan and proof idea per property (statements: properties.jsonl)

| ids | model | proof idea |
|---|---|---|
| C01, C02 | BitIO.v: BitOStream/BitIStream as byte-level state machines incl. destructor and look-ahead | closed form of the file = bits padded + trailer; simulation of the reader by a list of bits |
| C03-C05, C07 | IntCodes.v: integer codes over the bit stream, vbyte | read after write with arbitrary suffix; induction on digits |
| C06, C27 | Coders.v: coders as functions from typed calls to bits; ByteComp.v | per-call self-delimiting lemma + C01 |
| C08, C09 | ByteComp.v: RLE, MTF as list transducers with their state | invariant relating encoder/decoder state |
| C10-C13 | LZ.v: LZ78, LZW over a trie interface | simulation invariant between dictionary states |
| C14, C15 | Tries.v: binary, sorted binary, ternary and hash tries on arrays | representation invariant, refinement of a finite map |
| C16-C18, C40 | LZSS.v, Strategies.v, PlcpStrategy.v: factor buffer, flatten, text coding, sliding window, all LCP driven strategies | decode = text by induction on the parse; maximality of factors; priority-queue invariants |
| C19 | LCPDec.v: decode buffers | invariant: pending references are exactly the unresolved ones |
| C20-C22 | Escape.v: EscapeMap, restricted buffer/stream | list homomorphisms |
| C23 | BWT.v | LF-mapping is the inverse permutation; counting argument |
| C24 | Huffman.v: table construction in place, canonical code, header | tree invariant on the array; Kraft; exchange argument for optimality |
| C25, C52 | SLE.v: k-mer table, ranked alphabet; Counter | encoder and decoder tables agree; per-call relation |
| C26 | Arith.v: code blocks on 64-bit intervals | nested intervals never overlap; block-wise simulation; exact domain |
| C28, C50 | Chain.v, driver header | composition of restrictions and streams |
| C29 | RePair.v | each replacement round preserves the expansion; most frequent pair |
| C30 | IntVec.v: packed vectors, slices | memory as list of 64-bit words; refinement of arrays |
| C31, C32 | RankSelect.v | block invariants, counting |
| C33, C34 | MaxQueues.v | heap / bucket-list invariants over all histories |
| C35, C36 | SAComp.v: ISA, Phi, PLCP, LCP, sparse ISA, Sada and compressed LCP | suffix order lemmas; PLCP descent by at most 1 |
| C37, C39 | UtilArith.v: generators, helpers | induction; refuted where off |
| C38, C48 | Json.v, Stat.v | independent JSON parser; reference report from the history of events |
| C41, C51 | AlgParser.v, AlgEval.v: parser, printer, registry, evaluation | grammar as relation: sound + complete; meaning relation unique |
| C42 | Lfs.v, BitCoders.v: LFS encoder, ESA strategy, coders sharing a stream | dead-position invariant: all earlier rules at least as long, so two end checks suffice |
| C43 | LZ78U.v: factorization over the suffix tree, both strategies, decompressor | invariant: R maps marked nodes to factors that expand to the node's string; a relation giving the meaning of the calls of a factor, refined by encoder and decoder |
| C44 | CompactHash.v: virtual/change bits, sparse groups, quotient/displacement, growth; CompactTrie.v: LZW, LZ78 over it | runs of slots as a periodic array, group invariant on the v/c bits, growth = re-insertion; refinement of a finite map |
| C45 | HashMap.v | probe-sequence invariants, termination characterised by prober and size manager |
| C46 | View.v | lists |
| C47 | esp rounds: alphabet reduction, landmarks, meta blocks, block adjustment, grammar rules, plain SLP coder, expansion (Esp.v) | pointwise landmark facts give blocks of 1..3; block adjustment by decreasing number of 1-blocks with the invariant that type 2 is never followed by type 3; rounds by an invariant on what each symbol generates |
| C53 | SlpSort.v (renumbering lists, sorted SLP coder frame), DCodings.v (codings of the right-hand sides), Succinct.v and SubOptimal.v (monotone subsequences, greedy and optimal), WtCoding.v (wavelet tree) | renumbering as a permutation that respects derivations; coder frame for any coding that gives its list back; exact abort condition for range_fit; layers of the optimal strategy as antichains, so that no chain is longer |
| C54 | UintT.v (bit field of N bits, usual arithmetic conversions, dispatch of each operator and operand type) | congruence modulo 2^N of every ring and bitwise operator; induction over the history |
| C55 | RollTrie.v (rolling hashes, RollingTrie, ExtHashTrie, both compressors over them) | simulation of the textbook trie as long as the map from phrases to fingerprints is injective; pigeonhole over the 256^9 strings of length 9 for the loss; base-257 digits for Wordpack |
| C56 | LfsTree.v (STStrategy, SimSTStrategy, BSTStrategy over an abstract suffix tree) | the invariant of C42 (rules, uses, dead positions), lists of begin positions are sorted occurrences of the node's word |
| C57 | Lfs2.v (both layers, encoder, decoder, state kept between calls) | invariant over both layers: first-layer blocks are disjoint uses, a second-layer symbol lies in the defining occurrence of an earlier rule; the items written spell the rule; dictionary read from the last rule |
| C58 | Ukk.v (Ukkonen's construction with suffix links, active point and child maps; the visit by STStrategy) | invariant of the tree (each node has a place in the text where its word occurs), of the active point and of the links; inserting a leaf and splitting an edge keep it; a repeated letter below a node without link forces the active point onto a node; measure on remainder and active length |
| C59 | Bst.v (BinarySuffixTree: first child, next sibling, start, end, link and suffix arrays, every access checked; the visits by BSTStrategy and LFS2BST) | simulation: round by round the arrays hold the nodes of Ukk.v (C58), sibling chains in insertion order; bounds from the invariant that at most 2·suffix nodes exist |
| C60 | RigHash.v (rigtorp::HashMap with its masks, probing, rehash and deletion) | invariant: no empty slot between the ideal and the actual place of an entry, keys unique, at most half full; deletion: the same except for the hole, and entries between hole and cursor do not need it |
| C61 | EspIpd.v (the IPD maps, GrammarRules and the rounds over any of them) | each map simulates an association list under permutations as long as values exceed key parts; the rules array is filled the same way in every order, so the grammar is that of Esp.v |
| C62 | Cedar.v (cedar.hpp in the configuration of CedarTrie: cells, rings of free cells, three lists of blocks, _follow, _resolve, _find; CedarTrie and the loops of LZ78 and LZW over it) | two invariants: the cells are partitioned into used ones and per-block rings, the blocks into the lists; the array codes a tree whose sibling lists are sorted. Insertion renames nodes injectively and fixes the root's children, so the remembered positions of nodes 1 to 254 stay right |
| C49 | InputObj.v: Input, InputAlloc, streams, views, mmap | pool of restricted copies; every access shows the same bytes |

## Trusted base

* The kernel of Coq 8.16.1 (the proofs are also re-checked by `coqchk` in `vcheck`).
* The hand translation of the C++ text into the model (tested by mutations: seeded/LOG.jsonl).
* Axioms: none. `Print Assumptions` says "Closed under the global context" for every theorem
  listed at the end of this file. (`coqchk` additionally lists the opaque constants of the
  library file `Coq.ssr.ssrunder`, which is loaded with `Lia`; nothing depends on them.)
* Only the Coq standard library is used.

## What is not modelled

* divsufsort (util/divsufsort*): its contract `is_sa` (a permutation sorting the suffixes) is the
  hypothesis of the suffix-array theorems; existence of such an array is witnessed by examples.
* sdsl (compressed suffix trees, the cst of SimST and LFS2; wavelet trees), boost heaps (modelled by their
  contract), Judy, std::unordered_map (any iteration order), the hash functions (arbitrary functions
  in the theorems). Of cedar.hpp: save/open, predict, erase, reduced tries, tracked nodes, and overflow of its
  int indices.
* The standalone `huff::encode/decode` of HuffmanCoder.hpp;
  the ESP codings d_huffman and d_arithmetic; debug logging; malloc.cpp's dlsym wrapper.
* Concurrency: the library is single threaded; the only shared state (StatPhase's current phase,
  the pool of an Input) is modelled sequentially.
* Lifetime errors such as an InputView that outlives its Input.
* I/O failures of the operating system (short reads, full disks), and memory exhaustion.

## Findings (defects of the code, each proved as a `_refuted` theorem)

LZ78 over CedarTrie keeps the position of its root although the double array moves that node, and reads outside
the array (a text of three letters suffices); LZW over it loses texts with the bytes 0 or 255 in the same way;
rigtorp::HashMap accepts its empty key, and esp::DynamicSizeIPD over it forgets keys that look like an empty
slot unless their value is larger (ESP is not affected: rule numbers are); BinarySuffixTree writes outside its arrays for a text of one character (LFS2BST on the empty input with
min_lrf = 1); lfs ST writes outside its 200 bins at a node 400 characters deep, min_lrf = 0 (SimST: any multiple of
65536) runs out of range, LFS2 reads in front of a text of NULs only and keeps its rules when the
object is used again; LZ78/LZW with a rolling-hash trie compare fingerprints only, so for every hash some short text is
silently replaced by another (Wordpack: a plain ASCII text of 91 bytes; it also drops a NUL at the start
of a phrase, and ZBackup, the default argument, an FF, and misreads "aaa" in LZW); numeric_limits<uint_t<N>>::max()
is 0 for N = 54..63 and undefined for 64;
ArrayMaxHeap::remove does not percolate up, so lcpcomp(comp=heap) may emit overlapping factors;
the Huffman coder writes out of bounds when byte 255 meets another byte (also lfs_comp with its
default coder); the arithmetic coder fails on empty or all-NUL texts, loses 0xFF and corrupts texts
where NUL is rarer than other bytes or calls are interleaved; the SLE coder fails for k = 0 and
k >= 8 and drops unannounced literals; Bulldozer emits no factors; threshold 0 crashes or hangs;
LZ78 with a hash trie drops NULs at the root and its clear() is a no-op; RePair fails on the empty
input; isqrt is capped at 15; Thue-Morse has half the documented length; RunRich is off by one;
JSON keys and backslashes are not escaped; StatPhase loses a pause on log/child start/to_json and
leaves 64-character titles unterminated; View::remove_suffix(size()+1) is accepted; the tail slice of a
bounded slice of an Input reads past its end; stream slices with escape restrictions go wrong at the
end of the data; driver ids longer than 1023 bytes are written but cannot be read; HashMap recurses
or loops forever with some size managers/probers; the algorithm-string parser ignores trailing
text, does not escape quotes when printing and rejects a number at the end of the text; option values
that are empty strings cannot be used; the range_fit coding of the sorted ESP coder aborts at a CHECK
that counts sign bits it does not write; the compact sparse hash table accesses m_buckets out of bounds
when a run of full slots reaches the last slot and slot 0 is free, has 4032 buckets whatever its
capacity, returns a stale reference from index() when a table of at most 64 slots grows (so
lz78(compact_sparse_hash) loses texts such as noonoy), and insert() does not overwrite although its
comment says so; LZ78U stores factor ids in entries of bits_for(max_z) bits although there can be more
factors (texts are lost), and does not end with threshold 0.

## Theorems and assumptions

`Print Assumptions` of each theorem below: Closed under the global context.

* C01 (proved): `bitstream_roundtrip`, `bitstream_eof_exact`, `bitstream_prefix_reads`, `bitstream_bytes_ok`
* C02 (proved): `bitreader_total`, `bitreader_eof_absorbing`
* C03 (proved): `write_int_read_int`
* C04 (proved): `unary_roundtrip`, `elias_gamma_roundtrip`, `elias_delta_roundtrip`, `ternary_roundtrip`, `compressed_int_roundtrip`, `unary_hangs_on_truncated_input`. Finding: read_unary loops forever on a truncated stream of zeros.
* C05 (proved): `vbyte_roundtrip`
* C06 (proved): `coder_roundtrip`, `coder_no_early_eof`, `simple_coders_ok`, `ascii_bit_coders_ok_char`
* C07 (proved): `bits_for_sufficient`, `bits_for_least`
* C08 (proved): `rle_roundtrip`, `rle_nonterminating_refuted`. Finding: the compressor never returns on texts ending in FF FF.
* C09 (proved): `mtf_roundtrip`
* C10 (proved): `lz78_roundtrip`, `lz78_roundtrip_ascii_end`, `lz78_high_byte_end_refuted`, `lz78_lzw_with_tries`. Finding: signed char passed as the last literal.
* C11 (proved): `lz78_bounded_roundtrip`, `lz78_bounded_exact`, `lz78_bounded_two`, `lz78_bounded_refuted`, `lz78_bounded_bit_refuted`, `lz78_blind_coders`. The decompressor never resets its dictionary. Proved: the exact text read back for every text and dict_size; lossless iff-style domain (fewer than dict_size factors, or dict_size <= 2); a lost text for every dict_size >= 3.
* C12 (proved): `lzw_roundtrip`, `lz78_lzw_with_tries`
* C13 (proved): `lzw_bounded_roundtrip`, `lzw_bounded_coders`, `lzw_bounded_bit_refuted`, `lzw_tiny_dict_refuted`. Findings: Bit coder with dict_size >= 512 and dict_size <= 256 are not lossless.
* C14 (proved): `tries_are_dictionaries`, `trie_answers_like_map`
* C15 (proved): `hash_tries_roundtrip`, `hash_trie_lz78_exact`, `hash_trie_lz78_lossless_iff`, `hash_trie_not_dictionary`, `hash_trie_nul_refuted`. NUL at the root collides and clear() is a no-op. Proved: lossless on NUL-free texts (both tries, LZ78 and LZW; the compact trie over an idealised map, see C44 for the real table); for LZ78 with the hash trie the exact text returned and the exact set of texts recovered; counterexamples for the rest.
* C16 (proved): `lzss_roundtrip`, `lzss_roundtrip_any_coder`, `lzss_events`
* C17 (proved): `flatten_preserves`, `flatten_roundtrip`
* C18 (proved): `window_roundtrip`, `window_bit_refuted`, `window_zero_refuted`
* C19 (proved): `lcpcomp_decoders_correct`, `lcpcomp_scan_correct`, `lcpcomp_roundtrip`, `scan_unterminated_refuted`. Finding: EagerScanDec leaves its last bucket pointer uninitialised; unreachable on NUL-terminated texts.
* C20 (proved): `restriction_removes_forbidden`, `unrestriction_lossless`, `change_restrictions_correct`, `six_escape_bytes_suffice`, `null_only_unrestrict_loses`, `too_many_escape_bytes`
* C21 (proved): `restrictions_semilattice`, `restrictions_union`, `restrictions_tests`
* C22 (proved): `restriction_removes_forbidden`, `unrestriction_lossless`
* C23 (proved): `bwt_roundtrip`, `bwt_permutes`, `bwt_pipeline`, `bwt_byte_255_refuted`, `bwt_nul_file_refuted`. Finding: compute_LF does not accumulate C[255], so texts with byte 255 (including escaped NULs) are decoded wrongly.
* C24 (proved): `huffman_calls_roundtrip`, `huffman_roundtrip`, `huffman_optimal`, `huffman_255_refuted`, `huffman_unannounced_refuted`, `lzss_huffman_roundtrip`. For every stdlib_ok implementation of make_heap/pop_heap/push_heap/sort. huff::encode/decode free functions are not modelled separately.
* C25 (proved): `sle_roundtrip_iff`, `sle_coder_loose`, `sle_coder_announced`, `sle_encode_roundtrip`, `sle_lzss_roundtrip`, `sle_repair_roundtrip`, `sle_kmer_0_refuted`, `sle_kmer_8_refuted`, `sle_kmer_long_refuted`. exact: lossless iff all literals announced, k = 1..7; shifting 1UL by 64 (only with no announced literals, where the result is unused) is modelled as an arbitrary value
* C26 (proved): `arith_roundtrip`, `arith_encode_roundtrip`, `arith_empty_refuted`, `arith_nul_refuted`, `arith_ff_refuted`, `arith_mixed_refuted`, `arith_lzss_refuted`. Arith.v; domain in ArithSpec.v. The mixed cases outside of the domain are refuted by counterexamples, the three pure ones for every length.
* C27 (proved): `literal_encoder_roundtrip`, `literal_encoder_simple_roundtrip`, `noop_roundtrip`
* C28 (proved): `chain_lossless`, `chain_compositional`. Chain.v over the Input/Output model InputObj.v; compressors are arbitrary functions on bytes with declared restrictions.
* C29 (proved): `repair_grammar`, `repair_roundtrip`, `repair_simple_coders`, `repair_huffman`, `repair_empty_refuted`. RePair.v, the linked-list representation included; Re-Pair as a derivation in RePairSpec.v. Finding: the empty input is undefined behaviour.
* C30 (proved): `packed_vector_history`, `packed_vector_set_get`, `packed_vector_constructors`, `packed_vector_equality`, `packed_slice`, `bit_accessors`, `resize_stale_refuted`, `same_width_resize_refuted`, `fixed_width_change_refuted`. word-level model of BitPackingVector/IntPtr bit access; history theorem over all call sequences; three deviations proved as _refuted
* C31 (proved): `rank_correct`, `word_rank_select`, `byte_rank_table`, `pushed_bits_hold`. Built on the word-level packed vector model, including the truncation of stored counters to their widths.
* C32 (proved): `select_correct`, `word_rank_select`, `select0_padding_refuted`, `select1_stale_refuted`. Finding: Select0 counts the zero padding of the last word: out-of-range queries return garbage positions instead of the size.
* C33 (proved): `heap_contents`, `heap_remove_breaks_maximum_refuted`, `heap_key_0_refuted`. Contents for every history; the maximum for histories that remove only maximal items; refuted for arbitrary removes.
* C34 (proved): `msl_tracks_maximum`, `msl_threshold_0_refuted`
* C35 (proved): `companions_correct`, `plcp_last_refuted`, `sparse_isa_correct`. For every NUL-terminated text and compress mode; the sparse ISA for every permutation and sampling distance. Finding: PLCP at the last text position keeps SA[n-1] instead of 0.
* C36 (proved): `compressed_lcp_correct`, `compressed_lcp_first_refuted`, `lcp_sada_correct`. Finding: CompressedLCP[0] returns a remnant of SA[n-1], not 0.
* C37 (proved): `fibonacci_spec`, `fibonacci_unique`, `thue_morse_spec`, `thue_morse_length_refuted`, `run_rich_spec`, `run_rich_repeats_refuted`. UtilArith.v; the documented words in UtilSpec.v. The Thue-Morse length and the run-rich recurrence differ from the documentation; the exact behaviour is proved.
* C38 (proved): `json_roundtrip`, `json_injective`, `json_backslash_refuted`, `json_backslash_n_refuted`, `json_key_refuted`, `json_set_spec`. Json.v; an independent RFC 8259 parser in JsonSpec.v.
* C39 (proved): `idiv_ceil_spec`, `bytes_for_spec`, `round_up_div_spec`, `round_up_div_overflow_refuted`, `isqrt_spec`, `isqrt_refuted`, `next_power_of_two_spec`, `shift_by_spec`. UtilArith.v, word sizes explicit.
* C40 (proved): `strategies_factorise`, `lcpcomp_lossless`, `lzss_lcp_greedy`, `lzss_lcp_lossless`, `heap_strategy_factors_fit`, `heap_strategy_overlap_refuted`, `arrays_threshold_0_refuted`, `lzss_lcp_threshold_0_refuted`. Real defect: comp=heap can emit overlapping factors (text of 26 bytes, threshold 3) because ArrayMaxHeap::remove never moves an item up.
* C41 (proved): `parser_total`, `parser_sound`, `parser_rejects`, `parser_complete`, `spelling_unambiguous`, `print_parse`, `parser_limits_refuted`. AlgParser.v (cursor-level model with the terminating NUL); grammar in AlgSyntax.v.
* C42 (proved): `lfs_encoding_roundtrip`, `lfs_coders`, `lfs_esa_rules`, `lfs_selection_optimal`, `lfs_esa_lossless`, `lfs_esa_huffman_lossless`, `lfs_huffman_255_refuted`. Lfs.v; what rules must satisfy in LfsSpec.v. The strategies st, bst, sim_st are covered by lfs_encoding_roundtrip only if they deliver valid rules (not modelled).
* C43 (proved): `lz78u_buffering_roundtrip`, `lz78u_streaming_roundtrip`, `lz78u_huffman_roundtrip`, `lz78u_huffman_255_refuted`, `lz78u_threshold0_refuted`, `lz78u_overflow_refuted`. LZ78U.v. The suffix tree (sdsl, not part of the repository) is modelled by its definition: internal nodes above a leaf are its prefixes of length LCP with another suffix.
* C44 (proved): `compact_hash_is_map`, `compact_hash_insert_fails_only_at_wrap`, `compact_hash_wrap_refuted`, `compact_hash_large_refuted`, `lzw_compact_trie_roundtrip`, `lz78_compact_trie_refuted`. CompactHash.v models the table bit by bit (v/c bits, groups, quotients, displacement, growth), CompactTrie.v the trie over it and LZW/LZ78. Key widths above 64 bits are not modelled.
* C45 (proved): `hashmap_is_map`, `hashmap_returns`, `hash_tries_use_the_map`, `hash_trie_table_roundtrip`, `hashmap_small_tables_refuted`, `hashmap_quad_pow2_refuted`. HashMap.v: the tables, probers, size managers, growth policy with float rounding; ideal map in HashMapSpec.v. Findings: infinite recursion with modulo/prime sizes on small tables, infinite loop with quadratic probing.
* C46 (proved): `slice_is_range`, `substr_is_range`, `remove_is_range`, `access_is_list`, `compare_is_lexicographic`, `starts_ends_with`. View.v: block of memory, pointer and size modelled explicitly. Finding: remove_suffix(size()+1) is accepted.
* C47 (proved): `esp_roundtrip`, `esp_grammar_generates`, `esp_blocks_cover`. Esp.v; what a grammar generates in EspSpec.v.
* C48 (proved): `phase_data_correct`, `max_prefix_spec`, `every_history_consistent`, `split_is_end_start`, `pause_refuted`, `report_json`, `report_long_title_refuted`. Stat.v; the figures a program should see in StatSpec.v. Memory figures are unbounded integers.
* C49 (proved): `input_accesses_agree`, `tail_of_bounded_slice_refuted`, `bounded_file_size_refuted`, `stream_history`, `stream_end_ranges_refuted`, `stream_escape_byte_refuted`. InputObj.v, including the pool of shared stream buffers; specification in InputSpec.v. Four findings (see DESIGN).
* C50 (proved): `driver_roundtrip`, `driver_raw_roundtrip`, `driver_long_id_refuted`, `driver_percent_refused`. Chain.v; the registry is an arbitrary function from ids to compressors.
* C51 (proved): `registry_consistent`, `evaluation_ends`, `evaluation_exact`, `evaluation_rejects`, `meaning_unique`, `select_exact`, `registered_id_selects`, `builder_selection`, `template_arguments_static`, `pattern_order`, `empty_option_refuted`. AlgEval.v; the meaning of a string as a relation in AlgEvalSpec.v.
* C52 (proved): `counter_counts`. std::sort modelled by insertion sort: the comparison is total on distinct keys
* C53 (proved): `slp_dep_sort_sorted`, `esp_sorted_plain_roundtrip`, `esp_sorted_diff_roundtrip`, `esp_sorted_range_fit_exact`, `esp_sorted_range_fit_refuted`, `esp_sorted_succinct_default_roundtrip`, `esp_sorted_succinct_greedy_roundtrip`, `esp_sorted_succinct_plain_roundtrip`, `subseq_greedy_partition`, `subseq_optimal_longest`. SlpSort.v, DCodings.v, Succinct.v, WtCoding.v, SubOptimal.v. The floating point comparison of the threshold option is an arbitrary function.
* C54 (proved): `uint_store_load`, `uint_compound`, `uint_history`, `uint_incdec`, `uint_operators`, `uint_complement`, `uint_compare`, `uint_limits_max`, `uint_limits_max_refuted`, `uint_outside_refuted`. UintT.v models the bit field, the conversions and the dispatch of every operator on LP64; N = 1 (bool) and mixed uint_t<N>/uint_t<M> expressions are not modelled.
* C55 (proved): `lz78_rolling_roundtrip`, `lzw_rolling_roundtrip`, `wordpack_short_phrases`, `zbackup_short_phrases`, `lz78_rolling_loses`, `rolling_keys_64bit`, `lz78_registered_rollers_lose`, `wordpack_ascii_refuted`, `rolling_letters_refuted`, `ext_trie_same_calls`, `ext_trie_roundtrip`. RollTrie.v; phrases and fingerprints in RollSpec.v. The hash tables are the finite maps of PropHashMap.v.
* C56 (proved): `lfs_bst_rules`, `lfs_sim_st_rules`, `lfs_st_rules`, `lfs_rules_lossless`, `lfs_trees_lossless`, `lfs_min_lrf_zero_refuted`, `lfs_st_deep_refuted`. LfsTree.v; what a suffix tree is in LfsTreeSpec.v. The construction of the tree (sdsl, ds/BinarySuffixTree.hpp) is not modelled.
* C57 (proved): `lfs2_lossless`, `lfs2bst_lossless`, `lfs2_huffman_lossless`, `lfs2_huffman_255_refuted`, `lfs2_refuted`, `lfs2_reuse_refuted`. Lfs2.v; the suffix tree as in C56. The statistics at the end of compress() are not modelled.
* C58 (proved): `suffix_tree_correct`, `st_tree_correct`, `lfs_st_lossless`, `no_leaf_refuted`. Ukk.v; the trees of SimST and LFS2 come from sdsl and stay abstract. The recursion depth of the visit (the C++ stack) is not bounded.
* C59 (proved): `bst_correct`, `bst_tree_correct`, `lfs_bst_lossless`, `lfs2bst_text_lossless`, `lfs2bst_text_huffman_lossless`, `bst_short_refuted`. Bst.v: arrays with bounds checked; the 32-bit width of their entries is a hypothesis of the end-to-end theorems (n < 2^31). The recursion depth of the visit is not bounded.
* C60 (proved): `C60_hash_map_is_a_map`, `C60_load`, `C60_refuted_empty_key`. RigHash.v; sizes are not wrapped at 2^64 and memory never runs out.
* C61 (proved): `esp_ipd_same_grammar`, `esp_ipd_roundtrip`, `esp_ipd_sorted_roundtrip`, `ipd_is_a_map`, `dynamic_size_refuted_small_values`. EspIpd.v; std::unordered_map is a finite map with an arbitrary iteration order.
* C62 (proved): `cedar_lzw_roundtrip`, `cedar_lzw_factors`, `cedar_lz78_refuted`, `cedar_lzw_zero_refuted`. Cedar.v; indices are unbounded integers (the C++ int overflows past 2^31 cells), memory never runs out. The statement is the exact domain found: the natural claim (every text, also LZ78) is refuted.
