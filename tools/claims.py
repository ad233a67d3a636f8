p('C01','proved','bitstream_roundtrip bitstream_eof_exact bitstream_prefix_reads bitstream_bytes_ok')
p('C02','proved','bitreader_total bitreader_eof_absorbing')
p('C03','proved','write_int_read_int')
p('C04','proved','unary_roundtrip elias_gamma_roundtrip elias_delta_roundtrip ternary_roundtrip compressed_int_roundtrip unary_hangs_on_truncated_input','Finding: read_unary loops forever on a truncated stream of zeros.')
p('C05','proved','vbyte_roundtrip')
p('C06','proved','coder_roundtrip coder_no_early_eof simple_coders_ok ascii_bit_coders_ok_char')
p('C07','proved','bits_for_sufficient bits_for_least')
p('C08','proved','rle_roundtrip rle_nonterminating_refuted','Finding: the compressor never returns on texts ending in FF FF.')
p('C09','proved','mtf_roundtrip')
p('C10','proved','lz78_roundtrip lz78_roundtrip_ascii_end lz78_high_byte_end_refuted lz78_lzw_with_tries','Finding: signed char passed as the last literal.')
p('C11','proved','lz78_bounded_roundtrip lz78_bounded_exact lz78_bounded_two lz78_bounded_refuted lz78_bounded_bit_refuted lz78_blind_coders','The decompressor never resets its dictionary. Proved: the exact text read back for every text and dict_size; lossless iff-style domain (fewer than dict_size factors, or dict_size <= 2); a lost text for every dict_size >= 3.')
p('C12','proved','lzw_roundtrip lz78_lzw_with_tries')
p('C13','proved','lzw_bounded_roundtrip lzw_bounded_coders lzw_bounded_bit_refuted lzw_tiny_dict_refuted','Findings: Bit coder with dict_size >= 512 and dict_size <= 256 are not lossless.')
p('C14','proved','tries_are_dictionaries trie_answers_like_map')
p('C15','proved','hash_tries_roundtrip hash_trie_lz78_exact hash_trie_lz78_lossless_iff hash_trie_not_dictionary hash_trie_nul_refuted','NUL at the root collides and clear() is a no-op. Proved: lossless on NUL-free texts (both tries, LZ78 and LZW; the compact trie over an idealised map, see C44 for the real table); for LZ78 with the hash trie the exact text returned and the exact set of texts recovered; counterexamples for the rest.')
p('C16','proved','lzss_roundtrip lzss_roundtrip_any_coder lzss_events')
p('C17','proved','flatten_preserves flatten_roundtrip')
p('C18','proved','window_roundtrip window_bit_refuted window_zero_refuted')
p('C20','proved','restriction_removes_forbidden unrestriction_lossless change_restrictions_correct six_escape_bytes_suffice null_only_unrestrict_loses too_many_escape_bytes')
p('C21','proved','restrictions_semilattice restrictions_union restrictions_tests')
p('C22','proved','restriction_removes_forbidden unrestriction_lossless')
p('C27','proved','literal_encoder_roundtrip literal_encoder_simple_roundtrip noop_roundtrip')
p('C19','proved','lcpcomp_decoders_correct lcpcomp_scan_correct lcpcomp_roundtrip scan_unterminated_refuted','Finding: EagerScanDec leaves its last bucket pointer uninitialised; unreachable on NUL-terminated texts.')
p('C23','proved','bwt_roundtrip bwt_permutes bwt_pipeline bwt_byte_255_refuted bwt_nul_file_refuted','Finding: compute_LF does not accumulate C[255], so texts with byte 255 (including escaped NULs) are decoded wrongly.')
p('C30','proved','packed_vector_history packed_vector_set_get packed_vector_constructors packed_vector_equality packed_slice bit_accessors resize_stale_refuted same_width_resize_refuted fixed_width_change_refuted','word-level model of BitPackingVector/IntPtr bit access; history theorem over all call sequences; three deviations proved as _refuted')
p('C31','proved','rank_correct word_rank_select byte_rank_table pushed_bits_hold','Built on the word-level packed vector model, including the truncation of stored counters to their widths.')
p('C32','proved','select_correct word_rank_select select0_padding_refuted select1_stale_refuted','Finding: Select0 counts the zero padding of the last word: out-of-range queries return garbage positions instead of the size.')
p('C35','proved','companions_correct plcp_last_refuted sparse_isa_correct','For every NUL-terminated text and compress mode; the sparse ISA for every permutation and sampling distance. Finding: PLCP at the last text position keeps SA[n-1] instead of 0.')
p('C36','proved','compressed_lcp_correct compressed_lcp_first_refuted lcp_sada_correct','Finding: CompressedLCP[0] returns a remnant of SA[n-1], not 0.')
p('C40','proved','strategies_factorise lcpcomp_lossless lzss_lcp_greedy lzss_lcp_lossless heap_strategy_factors_fit heap_strategy_overlap_refuted arrays_threshold_0_refuted lzss_lcp_threshold_0_refuted','Real defect: comp=heap can emit overlapping factors (text of 26 bytes, threshold 3) because ArrayMaxHeap::remove never moves an item up.')
p('C33','proved','heap_contents heap_remove_breaks_maximum_refuted heap_key_0_refuted','Contents for every history; the maximum for histories that remove only maximal items; refuted for arbitrary removes.')
p('C34','proved','msl_tracks_maximum msl_threshold_0_refuted','')
p('C24','proved','huffman_calls_roundtrip huffman_roundtrip huffman_optimal huffman_255_refuted huffman_unannounced_refuted lzss_huffman_roundtrip','For every stdlib_ok implementation of make_heap/pop_heap/push_heap/sort. huff::encode/decode free functions are not modelled separately.')
p('C37','proved','fibonacci_spec fibonacci_unique thue_morse_spec thue_morse_length_refuted run_rich_spec run_rich_repeats_refuted','UtilArith.v; the documented words in UtilSpec.v. The Thue-Morse length and the run-rich recurrence differ from the documentation; the exact behaviour is proved.')
p('C38','proved','json_roundtrip json_injective json_backslash_refuted json_backslash_n_refuted json_key_refuted json_set_spec','Json.v; an independent RFC 8259 parser in JsonSpec.v.')
p('C39','proved','idiv_ceil_spec bytes_for_spec round_up_div_spec round_up_div_overflow_refuted isqrt_spec isqrt_refuted next_power_of_two_spec shift_by_spec','UtilArith.v, word sizes explicit.')
p('C48','proved','phase_data_correct max_prefix_spec every_history_consistent split_is_end_start pause_refuted report_json report_long_title_refuted','Stat.v; the figures a program should see in StatSpec.v. Memory figures are unbounded integers.')
p('C29','proved','repair_grammar repair_roundtrip repair_simple_coders repair_huffman repair_empty_refuted','RePair.v, the linked-list representation included; Re-Pair as a derivation in RePairSpec.v. Finding: the empty input is undefined behaviour.')
p('C28','proved','chain_lossless chain_compositional','Chain.v over the Input/Output model InputObj.v; compressors are arbitrary functions on bytes with declared restrictions.')
p('C46','proved','slice_is_range substr_is_range remove_is_range access_is_list compare_is_lexicographic starts_ends_with','View.v: block of memory, pointer and size modelled explicitly. Finding: remove_suffix(size()+1) is accepted.')
p('C49','proved','input_accesses_agree tail_of_bounded_slice_refuted bounded_file_size_refuted stream_history stream_end_ranges_refuted stream_escape_byte_refuted','InputObj.v, including the pool of shared stream buffers; specification in InputSpec.v. Four findings (see DESIGN).')
p('C50','proved','driver_roundtrip driver_raw_roundtrip driver_long_id_refuted driver_percent_refused','Chain.v; the registry is an arbitrary function from ids to compressors.')
p('C45','proved','hashmap_is_map hashmap_returns hash_tries_use_the_map hash_trie_table_roundtrip hashmap_small_tables_refuted hashmap_quad_pow2_refuted','HashMap.v: the tables, probers, size managers, growth policy with float rounding; ideal map in HashMapSpec.v. Findings: infinite recursion with modulo/prime sizes on small tables, infinite loop with quadratic probing.')
p('C41','proved','parser_total parser_sound parser_rejects parser_complete spelling_unambiguous print_parse parser_limits_refuted','AlgParser.v (cursor-level model with the terminating NUL); grammar in AlgSyntax.v.')
p('C51','proved','registry_consistent evaluation_ends evaluation_exact evaluation_rejects meaning_unique select_exact registered_id_selects builder_selection template_arguments_static pattern_order empty_option_refuted','AlgEval.v; the meaning of a string as a relation in AlgEvalSpec.v.')
p('C25','proved','sle_roundtrip_iff sle_coder_loose sle_coder_announced sle_encode_roundtrip sle_lzss_roundtrip sle_repair_roundtrip sle_kmer_0_refuted sle_kmer_8_refuted sle_kmer_long_refuted','exact: lossless iff all literals announced, k = 1..7; shifting 1UL by 64 (only with no announced literals, where the result is unused) is modelled as an arbitrary value')
p('C52','proved','counter_counts','std::sort modelled by insertion sort: the comparison is total on distinct keys')
p('C26','proved','arith_roundtrip arith_encode_roundtrip arith_empty_refuted arith_nul_refuted arith_ff_refuted arith_mixed_refuted arith_lzss_refuted','Arith.v; domain in ArithSpec.v. The mixed cases outside of the domain are refuted by counterexamples, the three pure ones for every length.')
p('C42','proved','lfs_encoding_roundtrip lfs_coders lfs_esa_rules lfs_selection_optimal lfs_esa_lossless lfs_esa_huffman_lossless lfs_huffman_255_refuted','Lfs.v; what rules must satisfy in LfsSpec.v. The strategies st, bst, sim_st are covered by lfs_encoding_roundtrip only if they deliver valid rules (not modelled).')
p('C47','proved','esp_roundtrip esp_grammar_generates esp_blocks_cover','Esp.v; what a grammar generates in EspSpec.v.')
p('C53','proved','slp_dep_sort_sorted esp_sorted_plain_roundtrip esp_sorted_diff_roundtrip esp_sorted_range_fit_exact esp_sorted_range_fit_refuted esp_sorted_succinct_default_roundtrip esp_sorted_succinct_greedy_roundtrip esp_sorted_succinct_plain_roundtrip subseq_greedy_partition subseq_optimal_longest','SlpSort.v, DCodings.v, Succinct.v, WtCoding.v, SubOptimal.v. The floating point comparison of the threshold option is an arbitrary function.')
p('C54','proved','uint_store_load uint_compound uint_history uint_incdec uint_operators uint_complement uint_compare uint_limits_max uint_limits_max_refuted uint_outside_refuted','UintT.v models the bit field, the conversions and the dispatch of every operator on LP64; N = 1 (bool) and mixed uint_t<N>/uint_t<M> expressions are not modelled.')
p('C55','proved','lz78_rolling_roundtrip lzw_rolling_roundtrip wordpack_short_phrases zbackup_short_phrases lz78_rolling_loses rolling_keys_64bit lz78_registered_rollers_lose wordpack_ascii_refuted rolling_letters_refuted ext_trie_same_calls ext_trie_roundtrip','RollTrie.v; phrases and fingerprints in RollSpec.v. The hash tables are the finite maps of PropHashMap.v.')
p('C44','proved','compact_hash_is_map compact_hash_insert_fails_only_at_wrap compact_hash_wrap_refuted compact_hash_large_refuted lzw_compact_trie_roundtrip lz78_compact_trie_refuted','CompactHash.v models the table bit by bit (v/c bits, groups, quotients, displacement, growth), CompactTrie.v the trie over it and LZW/LZ78. Key widths above 64 bits are not modelled.')
p('C56','proved','lfs_bst_rules lfs_sim_st_rules lfs_st_rules lfs_rules_lossless lfs_trees_lossless lfs_min_lrf_zero_refuted lfs_st_deep_refuted','LfsTree.v; what a suffix tree is in LfsTreeSpec.v. The construction of the tree (sdsl, ds/BinarySuffixTree.hpp) is not modelled.')
p('C57','proved','lfs2_lossless lfs2bst_lossless lfs2_huffman_lossless lfs2_huffman_255_refuted lfs2_refuted lfs2_reuse_refuted','Lfs2.v; the suffix tree as in C56. The statistics at the end of compress() are not modelled.')
p('C58','proved','suffix_tree_correct st_tree_correct lfs_st_lossless no_leaf_refuted','Ukk.v; the trees of SimST and LFS2 come from sdsl and stay abstract. The recursion depth of the visit (the C++ stack) is not bounded.')
p('C59','proved','bst_correct bst_tree_correct lfs_bst_lossless lfs2bst_text_lossless lfs2bst_text_huffman_lossless bst_short_refuted','Bst.v: arrays with bounds checked; the 32-bit width of their entries is a hypothesis of the end-to-end theorems (n < 2^31). The recursion depth of the visit is not bounded.')
p('C43','proved','lz78u_buffering_roundtrip lz78u_streaming_roundtrip lz78u_huffman_roundtrip lz78u_huffman_255_refuted lz78u_threshold0_refuted lz78u_overflow_refuted','LZ78U.v. The suffix tree (sdsl, not part of the repository) is modelled by its definition: internal nodes above a leaf are its prefixes of length LCP with another suffix.')
p('C60','proved','C60_hash_map_is_a_map C60_load C60_refuted_empty_key','RigHash.v; sizes are not wrapped at 2^64 and memory never runs out.')
p('C61','proved','esp_ipd_same_grammar esp_ipd_roundtrip esp_ipd_sorted_roundtrip ipd_is_a_map dynamic_size_refuted_small_values','EspIpd.v; std::unordered_map is a finite map with an arbitrary iteration order.')
p('C62','proved','cedar_lzw_roundtrip cedar_lzw_factors cedar_lz78_refuted cedar_lzw_zero_refuted','Cedar.v; indices are unbounded integers (the C++ int overflows past 2^31 cells), memory never runs out. The statement is the exact domain found: the natural claim (every text, also LZ78) is refuted.')
