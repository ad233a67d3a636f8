{"id": "C01", "title": "Bit stream round trip", "statement": "Whatever sequence of single bits is written to a BitOStream, after the stream is closed a BitIStream opened on the produced bytes yields exactly those bits in the same order, reports eof() = false before each of them and eof() = true right after the last one.", "quantifier": "every finite bit sequence (every length modulo 8, including the empty one)", "why_tests_cant": "the end-of-stream bookkeeping depends on the length modulo 8 and on the value of the last byte; tests sample a few lengths", "anchors": ["include/tudocomp/io/BitOStream.hpp:BitOStream", "include/tudocomp/io/BitIStream.hpp:BitIStream"]}
{"id": "C02", "title": "Reading past the end is safe and total", "statement": "On any byte file (also one not produced by tudocomp) a BitIStream delivers at most 8 bits per input byte, and once eof() is true it stays true and every further read_bit() returns 0.", "quantifier": "every byte file and every number of reads", "why_tests_cant": "requires all malformed files, not only produced ones", "anchors": ["include/tudocomp/io/BitIStream.hpp:read_bit,read_next,eof"]}
{"id": "C03", "title": "Fixed-width integers round trip", "statement": "write_int(v,w) followed by read_int(w) returns the low w bits of v, consumes exactly w bits, and leaves the rest of the stream untouched.", "quantifier": "every value, every width, every following stream content", "why_tests_cant": "value/width space is unbounded", "anchors": ["include/tudocomp/io/BitOStream.hpp:write_int", "include/tudocomp/io/BitIStream.hpp:read_int"]}
{"id": "C04", "title": "Variable-length integer codes round trip and are self-delimiting", "statement": "Unary, ternary, Elias-gamma, Elias-delta and blockwise compressed integers written to a bit stream are read back with their value, whatever bits follow; hence any sequence of them decodes unambiguously.", "quantifier": "every 64-bit value, every block width 1..63, every suffix", "why_tests_cant": "unbounded value space; boundary at powers of two, three and 2^64", "anchors": ["include/tudocomp/io/BitOStream.hpp:write_unary,write_ternary,write_elias_gamma,write_elias_delta,write_compressed_int", "include/tudocomp/io/BitIStream.hpp:read_unary,read_ternary,read_elias_gamma,read_elias_delta,read_compressed_int"]}
{"id": "C05", "title": "Byte-oriented variable-length integers round trip", "statement": "write_vbyte followed by read_int_vbyte/read_vbyte returns the value and leaves the following bytes unread.", "quantifier": "every 64-bit value and every following byte sequence", "why_tests_cant": "unbounded values", "anchors": ["include/tudocomp/util/vbyte.hpp:write_vbyte,read_vbyte"]}
{"id": "C06", "title": "Every coder decodes every interleaved sequence of encode calls", "statement": "For the ASCII, Bit, Elias-gamma, Elias-delta and Ternary coders: any sequence of encode(value, range) calls mixing ranges, literals and single bits, each value lying in its range, is returned in order by decode called with the same ranges, and then the decoder reports eof (except for coders whose end marker is padding-free).", "quantifier": "every sequence of (value, range) pairs, every coder", "why_tests_cant": "sequence space is unbounded; the interaction of variable-length codes with bit padding matters", "anchors": ["include/tudocomp/coders/ASCIICoder.hpp", "include/tudocomp/coders/BitCoder.hpp", "include/tudocomp/coders/EliasGammaCoder.hpp", "include/tudocomp/coders/EliasDeltaCoder.hpp", "include/tudocomp/coders/TernaryCoder.hpp", "include/tudocomp/Coder.hpp"]}
{"id": "C07", "title": "bits_for gives the exact width", "statement": "bits_for(n) is the least w >= 1 with n < 2^w, so that write_int(n, bits_for(max)) never loses bits for n <= max.", "quantifier": "every 64-bit value", "why_tests_cant": "all values", "anchors": ["include/tudocomp/util.hpp:bits_for,bits_hi"]}
{"id": "C08", "title": "Run-length coding is lossless", "statement": "rle_decode(rle_encode(t)) = t for any offset and every text that does not end in two 0xFF bytes; on a text that does, the compressor does not return.", "quantifier": "every byte string (runs of any length, bytes >= 128) and every offset", "why_tests_cant": "run structure unbounded; char signedness matters", "anchors": ["include/tudocomp/compressors/RunLengthEncoder.hpp"]}
{"id": "C09", "title": "Move-to-front is lossless", "statement": "mtf_decode(mtf_encode(t)) = t, and the encoder's symbols are table positions.", "quantifier": "every byte string", "why_tests_cant": "state depends on the whole history", "anchors": ["include/tudocomp/compressors/MTFCompressor.hpp"]}
{"id": "C10", "title": "LZ78 is lossless with an unlimited dictionary", "statement": "For each coder and each correct trie, decompressing the LZ78 output yields the input, including when the input ends inside a known phrase (for coders other than ASCII and Bit: if the last byte is below 128, since the left-over literal is passed as a signed char; the restriction is shown necessary).", "quantifier": "every byte string, every coder, every trie refining a map", "why_tests_cant": "depends on all histories of phrases", "anchors": ["include/tudocomp/compressors/LZ78Compressor.hpp", "include/tudocomp/compressors/lz78/LZ78Trie.hpp"]}
{"id": "C11", "title": "LZ78 with a bounded dictionary: exactly what is read back", "statement": "With dict_size = k the compressor's output is decompressed to the input whenever the LZ78 parse of the input has fewer than k factors, and for every input if k <= 1 or (with a coder whose decoding does not depend on the announced maximum, i.e. every simple coder but Bit) k = 2. In general (same coders) the decompressor, which never resets its dictionary, returns the text in which each factor written after a reset is read with the phrase of the same number of the first epoch; for every k >= 3 there is a text that is not recovered. With the Bit coder even k = 2 loses texts.", "quantifier": "every byte string, every dict_size, every correct trie and coder", "why_tests_cant": "reset points depend on history", "anchors": ["include/tudocomp/compressors/LZ78Compressor.hpp:dict_size"]}
{"id": "C12", "title": "LZW is lossless with an unlimited dictionary", "statement": "For each coder and each correct trie, decompressing LZW output yields the input, including codes used right after they are created (cScSc).", "quantifier": "every byte string", "why_tests_cant": "history dependent", "anchors": ["include/tudocomp/compressors/LZWCompressor.hpp", "include/tudocomp/compressors/lzw/LZWDecoding.hpp"]}
{"id": "C13", "title": "LZW is lossless with a bounded dictionary", "statement": "With dict_size = k >= 257 the LZW round trip is the identity for every coder whose decode does not depend on the announced maximum between 256 and k (every simple coder but Bit, and Bit up to k = 511); outside these bounds it is shown to fail.", "quantifier": "every byte string, every dict_size, every coder", "why_tests_cant": "reset points depend on history", "anchors": ["include/tudocomp/compressors/LZWCompressor.hpp", "include/tudocomp/compressors/lzw/LZWDecoding.hpp"]}
{"id": "C14", "title": "LZ78 tries implement a dictionary", "statement": "Binary, sorted-binary and ternary tries answer find_or_insert exactly like a map from (parent, letter) to child ids: a pair found returns the id of its insertion, a new pair gets the next id, other pairs are not disturbed.", "quantifier": "every sequence of find_or_insert calls", "why_tests_cant": "operation histories are unbounded; sibling-list surgery", "anchors": ["include/tudocomp/compressors/lz78/BinaryTrie.hpp", "include/tudocomp/compressors/lz78/BinarySortedTrie.hpp", "include/tudocomp/compressors/lz78/TernaryTrie.hpp"]}
{"id": "C15", "title": "Hash trie implements a dictionary", "statement": "LZ78 and LZW with the hash trie and an unlimited dictionary return every text without NUL bytes; so do LZ78 and LZW with the compact sparse hash trie if its table is taken to be a finite map (C44 says what the real table does: LZW stays lossless when it does not fail, LZ78 does not). LZ78 with the hash trie returns, for every text, the text without the NUL bytes that stand at a phrase start, hence recovers exactly the texts none of whose LZ78 factors starts with NUL. These tries are not dictionaries: with NUL bytes LZ78 (compact trie) and LZW lose texts, and clear() does nothing, so bounded dictionaries fail.", "quantifier": "every sequence of find_or_insert/clear calls", "why_tests_cant": "key collisions happen only for particular letters and ids", "anchors": ["include/tudocomp/compressors/lz78/HashTrie.hpp", "include/tudocomp/compressors/lz78/squeeze_node.hpp"]}
{"id": "C16", "title": "LZSS factor coding is lossless", "statement": "For any text and any ordered non-overlapping factor list whose sources repeat the text (to the left), encode_text then decode_text with any coder yields the text.", "quantifier": "every text, every valid factor list, every coder", "why_tests_cant": "unbounded", "anchors": ["include/tudocomp/compressors/lzss/LZSSCoding.hpp", "include/tudocomp/compressors/lzss/LZSSFactors.hpp", "include/tudocomp/compressors/lzss/LZSSLiterals.hpp"]}
{"id": "C17", "title": "Factor flattening preserves the text", "statement": "FactorBuffer::flatten changes only factor sources, and each new source still spells the same substring as before (and still points left if it did).", "quantifier": "every text and every sorted factor list with correct sources", "why_tests_cant": "chains of references of arbitrary shape", "anchors": ["include/tudocomp/compressors/lzss/LZSSFactors.hpp:flatten"]}
{"id": "C18", "title": "LZSS sliding window is lossless", "statement": "Decompressing the output of LZSSSlidingWindowCompressor yields the input for every window >= 1 and threshold, for every simple coder, where the Bit coder needs a window that is a power of two (shown necessary); window 0 loses every text.", "quantifier": "every byte string, every window, every threshold, every simple coder", "why_tests_cant": "window boundary conditions", "anchors": ["include/tudocomp/compressors/LZSSSlidingWindowCompressor.hpp"]}
{"id": "C19", "title": "lcpcomp decoders resolve any acyclic factorisation", "statement": "Given literals and factors (pointing left or right) of a text such that following references always ends at a literal, each decode strategy (scan, queue list, multimap, compact) outputs the text, independent of order.", "quantifier": "every text, every acyclic factorisation", "why_tests_cant": "reference chains in both directions of unbounded depth", "anchors": ["include/tudocomp/compressors/lcpcomp/decompress/ScanDec.hpp", "include/tudocomp/compressors/lcpcomp/decompress/CompactDec.hpp", "include/tudocomp/compressors/lcpcomp/decompress/DecodeQueueListBuffer.hpp", "include/tudocomp/compressors/lcpcomp/decompress/MultiMapBuffer.hpp"]}
{"id": "C20", "title": "Escaping is lossless and removes forbidden bytes", "statement": "For every input and every set of bytes to escape (with null termination or not), the restricted view contains none of the forbidden bytes except the terminator, and un-restricting it gives the original back, for both buffer and stream variants.", "quantifier": "every byte string, every escape set for which six escape bytes suffice, both termination flags", "why_tests_cant": "data dependent expansion", "anchors": ["include/tudocomp/io/EscapeMap.hpp", "include/tudocomp/io/RestrictedBuffer.hpp", "include/tudocomp/io/RestrictedIOStream.hpp", "include/tudocomp/io/InputRestrictions.hpp"]}
{"id": "C21", "title": "Input restrictions form a join semilattice", "statement": "Merging restrictions (operator|) is associative, commutative, idempotent, its has_restrictions/has_no_restrictions answers are complementary, and the merged restriction forbids exactly the union.", "quantifier": "all pairs/triples of restrictions", "why_tests_cant": "all sets", "anchors": ["include/tudocomp/io/InputRestrictions.hpp"]}
{"id": "C22", "title": "Stream and buffer restriction agree", "statement": "Escaping/terminating via a stream yields the same bytes as escaping/terminating a whole buffer; un-restriction of both agree too.", "quantifier": "every byte string and restriction", "why_tests_cant": "two independent implementations", "anchors": ["include/tudocomp/io/RestrictedBuffer.hpp", "include/tudocomp/io/RestrictedIOStream.hpp"]}
{"id": "C23", "title": "BWT decode inverts BWT encode", "statement": "For every NUL-terminated text without other NULs whose bytes are below 255 and its suffix array, the BWT output is a permutation of the text that the decoder turns back into the text; from the command line every file without bytes 0 and 255 survives. Byte 255 (and hence a file containing byte 0, which is escaped with 255) is not supported: a witness shows the decoded text differs.", "quantifier": "all texts and their suffix arrays", "why_tests_cant": "unbounded texts; depends on full byte range", "anchors": ["include/tudocomp/ds/bwt.hpp", "include/tudocomp/compressors/BWTCompressor.hpp"]}
{"id": "C24", "title": "Huffman coding is lossless and optimal, except when byte 255 meets another byte", "statement": "For every sequence of encode calls whose literals are announced at construction, are fewer than 2^32, and either do not contain byte 255 or are all equal, the Huffman coder's output (header and codes) decodes to the same values, for every conforming implementation of the standard library's heap and sort algorithms (i.e. any tie-breaking); with two or more distinct literals no prefix-free code uses fewer bits for the literals. If byte 255 occurs together with another byte the constructor writes outside its array; encoding a literal that was not announced fails.", "quantifier": "every multiset of literals, every interleaving with integer and bit calls, every ordering of equal frequencies, every competing prefix-free code", "why_tests_cant": "alphabet and frequency space unbounded", "anchors": ["include/tudocomp/coders/HuffmanCoder.hpp"]}
{"id": "C25", "title": "SLE coder is lossless for announced literals", "statement": "With k-mer length 1 to 7, any sequence of encode calls (literals, bits, integers in plain or min-distributed ranges) made on a static low entropy encoder decodes to the same values, with eof() true exactly at the end, if and only if every encoded literal was among the literals announced at construction, whatever positions were announced. Hence encode(sle), lzss with sle and repair with sle are lossless. k-mer length 0 accesses memory out of bounds on the first literal, length 8 corrupts the first character of a k-mer, lengths above 8 are undefined for every text with k literals in a row.", "quantifier": "every k-mer length, announced literal sequence with positions, and call sequence", "why_tests_cant": "unbounded inputs; the interplay of buffered literals, k-mer replacement and interruptions", "anchors": ["include/tudocomp/coders/SLECoder.hpp", "include/tudocomp/util/Counter.hpp"]}
{"id": "C26", "title": "Arithmetic coder is lossless on its domain", "statement": "Let the announced literals be fewer than 2^32, contain no byte 0xFF, and have a least frequent literal that is not NUL (with length/frequency < 2^31). Then for every call sequence whose literal calls are consecutive, exactly as many as announced and each an announced literal, with arbitrary other calls before and behind them, decoding with the same ranges returns the same values and eof() holds exactly at the end; encode(arithmetic) is lossless on such texts. Outside: the empty text makes the decoder read out of bounds, texts of NULs only divide by zero, texts of 0xFF only decode to the empty text, and 0xFF among other bytes, a NUL rarer than all other bytes, or a bit or factor between two literals (so lzss(..., arithmetic)) corrupt the data.", "quantifier": "every announced literal sequence, every call sequence, every number of code blocks", "why_tests_cant": "the interval arithmetic has different boundaries for every frequency table, and code blocks end at data dependent places", "anchors": ["include/tudocomp/coders/ArithmeticCoder.hpp: Encoder::build_intervals, setNewBounds, writeCodebook, encode; Decoder::decode"]}
{"id": "C27", "title": "Literal encoder and Noop are lossless", "statement": "LiteralEncoder with any simple coder, and NoopCompressor, return the input.", "quantifier": "every byte string", "why_tests_cant": "unbounded", "anchors": ["include/tudocomp/compressors/LiteralEncoder.hpp", "include/tudocomp/compressors/NoopCompressor.hpp"]}
{"id": "C28", "title": "Chaining preserves losslessness", "statement": "If two compressors are lossless on the inputs their declared restrictions admit, their chain is lossless on every input.", "quantifier": "every pair of compressors, every input", "why_tests_cant": "quantifies over algorithms", "anchors": ["include/tudocomp_driver/ChainCompressor.hpp", "include/tudocomp/io/Input.hpp", "include/tudocomp/io/Output.hpp"]}
{"id": "C29", "title": "RePair is lossless", "statement": "Decompressing RePair's output yields the input, for every non-empty byte string shorter than 2^32-256, every max_rules, and every coder that decodes what it encodes (with the Huffman coder: texts without byte 255 and max_rules between 1 and 255); the written grammar results from repeatedly replacing a most frequent neighbouring pair until no pair occurs twice or max_rules is reached. The empty input reads out of bounds (refuted).", "quantifier": "every byte string", "why_tests_cant": "grammar structure is data dependent", "anchors": ["include/tudocomp/compressors/RePairCompressor.hpp"]}
{"id": "C30", "title": "Packed integer vectors behave like arrays", "statement": "After any sequence of push_back, pop_back, element writes, shrinking resize, resize with a value, insert (one value n times, or a list), erase, clear and width changes on an empty dynamically sized bit-packed vector of width w, size() and every element read are those of a list in which every stored number is cut to its low w bits; a write to element i changes no other element; two vectors compare equal exactly when these lists are equal; slices and slices of slices show the corresponding elements. Three operations deviate from std::vector, and the deviations are characterised: resize(n) without a value may show stale bits instead of 0, resize(n, value, w) with the current width w leaves the size unchanged, and width(w) on a statically sized vector corrupts its contents.", "quantifier": "every width 1..64, every size, every sequence of calls within their preconditions", "why_tests_cant": "word-boundary straddling for every (width, index)", "anchors": ["include/tudocomp/ds/BitPackingVector.hpp", "include/tudocomp/ds/IntPtr.hpp", "include/tudocomp/ds/IntRepr.hpp"]}
{"id": "C31", "title": "Rank structure counts ones", "statement": "rank1(i) equals the number of 1 bits in positions 0..i, rank0 the number of 0 bits; rank(x,y) counts in the closed interval.", "quantifier": "every bit vector, every position", "why_tests_cant": "block/superblock boundaries", "anchors": ["include/tudocomp/ds/Rank.hpp", "include/tudocomp/ds/rank_64bit.hpp"]}
{"id": "C32", "title": "Select inverts rank", "statement": "For every bit vector and every order 1 <= x <= number of b-bits, Select<b>::select(x) returns the position of the x-th b-bit, and neither construction nor queries touch memory outside the arrays. For larger x it returns the size, provided the unused bits of the last backing word contain no b; without that proviso (always violated for Select0 unless the size is a multiple of 64 or the padding is all ones, and for Select1 after pop_back) the answer can be a position with the wrong bit. The word-level select/rank functions return the exact position/count or SELECT_FAIL.", "quantifier": "every bit vector and every k", "why_tests_cant": "block boundaries", "anchors": ["include/tudocomp/ds/Select.hpp", "include/tudocomp/ds/select_64bit.hpp"]}
{"id": "C33", "title": "ArrayMaxHeap: contents on every history, maximum on priority-queue histories", "statement": "On every history of inserts (of absent items with keys >= 1, while there is room), removes and key changes (to values >= 1) the heap stays inside its arrays, contains(), the keys and size() are exact and top() is a contained item; if only items with the maximum key are removed and keys only decrease, top() always has the maximum key. Removing an item that is not maximal can make top() wrong later, and a key of 0 can make removal leave the arrays.", "quantifier": "every operation history, key array and capacity", "why_tests_cant": "heap shapes depend on the whole history; the violation needs a subtree switch during removal", "anchors": ["include/tudocomp/ds/ArrayMaxHeap.hpp"]}
{"id": "C34", "title": "MaxLCPSuffixList tracks the maximum LCP", "statement": "After construction from any LCP array with threshold >= 1 and the correct maximum, and any sequence of remove / decrease_key calls on contained entries (decreases to values >= 1), no access leaves the arrays, contains(), size() and the LCP values are exact and get_max returns a remaining entry with maximum LCP. Threshold 0 with a zero entry accesses index -1.", "quantifier": "every LCP array and every operation history", "why_tests_cant": "linked list surgery over histories", "anchors": ["include/tudocomp/compressors/lcpcomp/MaxLCPSuffixList.hpp"]}
{"id": "C35", "title": "Suffix-array companions are correct", "statement": "Given the suffix array of a NUL-terminated text, in every compress mode: the inverse array (dense, or sparse with any sampling distance) inverts it, Phi[SA[i]] = SA[i-1], PLCP[SA[i]] = LCP[i] = lcp(SA[i-1],SA[i]) for i>=1, LCP[0]=0, max_lcp is the maximum, and construction never reads or writes outside an array. PLCP at the last text position is not 0: it keeps SA[n-1].", "quantifier": "every text", "why_tests_cant": "Kasai-type amortised reasoning for all texts", "anchors": ["include/tudocomp/ds/PhiFromSA.hpp", "include/tudocomp/ds/PLCPFromPhi.hpp", "include/tudocomp/ds/LCPFromPLCP.hpp", "include/tudocomp/ds/ISAFromSA.hpp", "include/tudocomp/ds/SparseISA.hpp"]}
{"id": "C36", "title": "Succinct LCP answers like the array", "statement": "The select-encoded LCP structures return LCP[i]: LCPSada for every i, CompressedLCP for every i>=1 (at index 0 it returns a remnant of SA[n-1]); LCPSada's forward iterator yields PLCP[0..n-1] in order.", "quantifier": "every text", "why_tests_cant": "bit positions depend on all values", "anchors": ["include/tudocomp/ds/LCPSada.hpp", "include/tudocomp/ds/CompressedLCP.hpp"]}
{"id": "C37", "title": "Text generators produce the documented words", "statement": "The Fibonacci generator returns the n-th Fibonacci word, the Thue-Morse generator the Thue-Morse word of its documented order, and the run-rich generator the documented sequence. Exact characterisation: Fibonacci holds for every n; Thue-Morse returns 2^(n-1) symbols of the Thue-Morse sequence (not the 2^n symbols one would read from the documentation); the run-rich recurrence as coded repeats a term from n=4 on.", "quantifier": "every n", "why_tests_cant": "recurrence for all n", "anchors": ["include/tudocomp/generators/FibonacciGenerator.hpp", "include/tudocomp/generators/ThueMorseGenerator.hpp", "include/tudocomp/generators/RunRichGenerator.hpp"]}
{"id": "C38", "title": "Statistics JSON is well formed", "statement": "A statistics value without backslashes and control characters (and without quotes in keys) is written as a JSON document that parses back to the same value, so distinct values give distinct documents. Outside this domain the claim is false of the code: a string ending in a backslash produces an unparsable document, backslash-n comes back as a newline, and a quote in a key ends the key. Object::set behaves like a finite map update with members in key order.", "quantifier": "every key/value string", "why_tests_cant": "arbitrary characters", "anchors": ["include/tudocomp_stat/Json.hpp"]}
{"id": "C39", "title": "Arithmetic helpers meet their specification", "statement": "idiv_ceil, bytes_for, round-up, next power of two and shift helpers return the mathematically specified value on their whole argument range, and isqrt returns the floor of the square root exactly up to 255; beyond that it is capped at 15. round_up_div wraps to a wrong value when the sum exceeds the word size.", "quantifier": "every 64-bit argument", "why_tests_cant": "all values", "anchors": ["include/tudocomp/util.hpp"]}
{"id": "C40", "title": "LCP-driven factorisation is correct and lossless", "statement": "For every text without NUL bytes (followed by the terminator) and every threshold >= 1, each of the strategies naive, PLCP peaks, arrays, max-lcp list, boost heap, plcp and bulldozer terminates and emits only factors of at least threshold length, inside the text without its terminator, pairwise non-overlapping, whose source spells what they replace and whose references form no cycle; lcpcomp with any of them, any width mode, with or without flattening, any simple coder and any decode strategy reproduces the text. LZSSLCPCompressor computes exactly the greedy parsing with longest previous occurrences and is lossless. The heap strategy (comp=heap) emits individually correct factors which however can overlap: there is a 26-byte text at threshold 3 for which the compressed stream describes more characters than it announces. Threshold 0 makes the arrays strategy leave its arrays and LZSSLCPCompressor run forever.", "quantifier": "every text, suffix array, threshold, strategy, coder, width mode and decode strategy", "why_tests_cant": "overlaps, cycles and out-of-array accesses depend on the repetition structure of the text; the heap defect needs a text of at least 26 bytes with a particular structure", "anchors": ["include/tudocomp/compressors/LZSSLCPCompressor.hpp", "include/tudocomp/compressors/LCPCompressor.hpp", "include/tudocomp/compressors/lcpcomp/compress/ArraysComp.hpp", "include/tudocomp/compressors/lcpcomp/compress/MaxLCPStrategy.hpp", "include/tudocomp/compressors/lcpcomp/compress/MaxHeapStrategy.hpp", "include/tudocomp/compressors/lcpcomp/compress/BoostHeap.hpp", "include/tudocomp/compressors/lcpcomp/compress/PLCPPeaksStrategy.hpp", "include/tudocomp/compressors/lcpcomp/compress/NaiveStrategy.hpp", "include/tudocomp/compressors/lcpcomp/compress/BulldozerStrategy.hpp", "include/tudocomp/compressors/lcpcomp/compress/PLCPStrategy.hpp"]}
{"id": "C41", "title": "Algorithm strings: what is parsed, and printing parses back", "statement": "On every text the parser of algorithm strings ends, returns a value or throws, and reads nothing behind the terminating NUL. What it returns is what some prefix of the text spells in the grammar (quoted strings, numbers, true/false, names with positional and keyword arguments, trailing comma, ':' chains, blanks between symbols); a text without such a prefix is rejected. Conversely every spelling, followed by anything that cannot continue it, is parsed to the value it spells, so no text spells two values. Printing a value whose names and keywords are identifiers, whose names are not true/false and whose strings contain no double quote gives a text that parses back to it. Outside of that it does not: a string with a double quote comes back as something else, text after a complete value is ignored, blanks after a number become part of the value, and a number at the very end of the text is refused.", "quantifier": "every text, every value, every nesting depth", "why_tests_cant": "unbounded nesting, lengths and placements of blanks", "anchors": ["include/tudocomp/util/algorithm_parser/AlgorithmAST.hpp: Parser", "include/tudocomp/util/algorithm_parser/ASTDef.hpp: Value, Arg, operator<<", "include/tudocomp/Registry.hpp: parse_algorithm_id"]}
{"id": "C42", "title": "LFS (longest-first substitution) is lossless", "statement": "For every text, whatever rules and uses a strategy hands to the LFS encoder, as long as the rules are nonempty pieces of the text (longest first) and the uses are disjoint places where the text reads like the rule, the decoder returns the text - with BitCoder, ASCIICoder or HuffmanCoder for literals and any universal coder for the lengths. The suffix array strategy (esa) always stays inside its arrays and delivers such rules, each of at least two characters and used at least twice, selecting a largest possible set of non-overlapping free occurrences; so lfs_comp(esa) is lossless on every restricted input. With the default Huffman coder the byte 255 must not occur (it writes outside its table otherwise).", "quantifier": "every text, every valid rule set and every suffix/LCP array of the text", "why_tests_cant": "the overlap argument (checking only both ends of a candidate) has to hold for every combination of earlier substitutions", "anchors": ["include/tudocomp/compressors/lfs/EncodeStrategy.hpp: encode, decode", "include/tudocomp/compressors/lfs/ESAStrategy.hpp: compute_rules, select_starting_positions", "include/tudocomp/compressors/lfs/LFSCompressor.hpp: compress, decompress"]}
{"id": "C43", "title": "LZ78U is lossless while its factor ids fit", "statement": "For every text without NUL bytes (the input restriction; other texts arrive escaped), every threshold of at least 1, both string strategies and every coder pair they admit: compression ends, and if the number of factors is less than 2^bits_for(n * bits_for(sigma) / bits_for(n)), decompressing the output yields the text; with the Huffman coder for the characters this needs a text without byte 255. Outside: with more factors the ids stored per suffix tree node are truncated and texts are lost (a 70 letter text comes back different), with threshold 0 compression of any nonempty text does not end, and with the Huffman coder a text with byte 255 writes outside of a table.", "quantifier": "every text up to 2^32 bytes, every threshold, every coder", "why_tests_cant": "labels are themselves factorized through references to earlier factors with cut values, and the id width is exceeded only by particular texts", "anchors": ["include/tudocomp/compressors/LZ78UCompressor.hpp", "include/tudocomp/compressors/lz78u/BufferingStrategy.hpp", "include/tudocomp/compressors/lz78u/StreamingStrategy.hpp"]}
{"id": "C44", "title": "Compact sparse hash table behaves like a map", "statement": "From any initial capacity 2^1..2^17 and for every history of fewer than 65536 insert and index-assign operations with sufficient, non-shrinking key widths (index-assign only from capacity 128 on), if the history runs to its end then every lookup and size() agree with a finite map in which insert keeps the value of an existing key, through every resize. An insertion fails only when slot 0 is free and every slot from the key's home slot to the last one is full. Outside that domain the table is not a map: keys 6, 7, 14 in a small table make it access an array out of bounds, the reference index() returns is stale after a growth of a table of at most 64 slots, and a table of capacity 2^18 or more cannot take some keys. LZW over this table is lossless on NUL-free texts whenever compression does not fail; LZ78 over it is not (it returns nonoy for noonoy).", "quantifier": "every operation history, key, value and width up to 64 bits in the domain; every NUL-free text for LZW", "why_tests_cant": "displacement runs, group reallocation and quotient re-splitting depend on the whole history of keys and resizes", "anchors": ["include/tudocomp/util/compact_sparse_hash.hpp", "include/tudocomp/compressors/lz78/CompactSparseHashTrie.hpp"]}
{"id": "C45", "title": "HashMap answers like a finite map, and when its calls return", "statement": "For every hash function, prober and size manager: whenever the calls of a history of insert/reserve/entries on a HashMap return, every insert reports the value stored under its key (its own value if the key is new) and entries() the number of keys, through every collision and every growth; so LZ78/LZW write with HashTrie and HashTriePlus over the real tables what they write with an ideal map. With linear probing and load factors from 0.3f to 0.95f the calls return: always with power-of-two sizes (so LZ78/LZW round-trip NUL-free texts), with modulo and prime sizes after a reserve of at least 10. They need not return otherwise: a modulo table of 4 slots or a prime table of 5 slots with load factor 0.95f recurses for ever on the insert that fills it, and quadratic probing over power-of-two sizes loops for ever in LZ78 of the bytes 16 32 48.", "quantifier": "every history of at most 2^28 calls (2^32 for the answers), every hash function, prober, size manager, load factor, text length announced", "why_tests_cant": "the answers depend on the whole collision and growth history; termination on an unbounded number of table states and on float rounding", "anchors": ["include/tudocomp/util/Hash.hpp"]}
{"id": "C46", "title": "Views slice like lists", "statement": "Views (GenericView, View): element access, front/back, pop, slice, substr, remove_prefix/suffix, starts_with/ends_with and all comparisons agree with the corresponding list operations on the elements the view shows, and in a debug build (at() in every build) every access outside the bounds is rejected, except the two calls whose computed end is the sentinel 2^64-1: remove_suffix(size()+1) and substr(pos, 2^64-1-pos), which are silently accepted.", "quantifier": "every block of memory, every view into it, every index, range and pair of views", "why_tests_cant": "all index combinations, wrap-around of size_t", "anchors": ["include/tudocomp/pre_header/GenericViewBase.hpp", "include/tudocomp/util/GenericView.hpp", "include/tudocomp/util/GenericConstView.hpp"]}
{"id": "C47", "title": "ESP grammar compression is lossless", "statement": "For every byte string of fewer than 2^32 bytes, ESP compression (default SLP coder 'plain', default map) ends and decompressing its output yields the string. Every round cuts its string into consecutive blocks of two or three symbols; the grammar built generates exactly the input, has fewer rules than the input has bytes and a derivation height of at most 2*log2(length).", "quantifier": "every byte string shorter than 2^32", "why_tests_cant": "the parsing is context sensitive (alphabet reduction, landmarks, block adjustment) and has branches that would loop forever if the invariant between block types failed", "anchors": ["include/tudocomp/compressors/EspCompressor.hpp", "include/tudocomp/compressors/esp/EspContextImpl.hpp: generate_grammar", "include/tudocomp/compressors/esp/meta_blocks.hpp", "include/tudocomp/compressors/esp/BlockAdjust.hpp", "include/tudocomp/compressors/esp/GrammarRules.hpp", "include/tudocomp/compressors/esp/PlainSLPCoder.hpp", "include/tudocomp/compressors/esp/SLP.hpp"]}
{"id": "C48", "title": "Memory statistics are consistent", "statement": "For every history of phases, allocations, frees, logs, pauses and splits with a monotone clock: each phase's peak is at least its final value and at least 0; each sub phase lies within its parent's time; offset plus peak of a sub phase never exceeds the parent's peak; a running phase's offset plus memory is its parent's memory; split equals ending and starting. For well-nested programs the final value, peak, offset, logged statistics and children are exactly the sums, maximal prefix sums and positions of the memory changes. Memory between pause and resume is excluded if nothing else is called in between; a log, nested phase or report in between silently resumes tracking. The report is a JSON document with exactly these figures if titles, keys and values are shorter than 64 characters and contain no backslash or control character.", "quantifier": "every history", "why_tests_cant": "histories", "anchors": ["include/tudocomp_stat/StatPhase.hpp", "include/tudocomp_stat/PhaseData.hpp"]}
{"title": "All accesses to an Input deliver the same bytes", "statement": "For an Input on memory or a file, narrowed and restricted any number of times, as_view, as_stream and size describe the same bytes: the restricted form of the selected range. For a stream, over every history of opening and closing views and streams and asking for sizes, on any ranges and restrictions, the process aborts exactly when the restrictions change while an object is open and otherwise every answer is right. Exceptions, each shown necessary: narrowing a bounded Input without an end reads past its end; a restricted bounded range of a file has a wrong size in release builds; with forbidden bytes a stream range starting or ending at the end of the data, or behind an escape byte, is wrong.", "quantifier": "every source, every sequence of narrowings and restrictions, every history of accesses", "why_tests_cant": "histories and nested ranges are unbounded", "anchors": ["include/tudocomp/io/Input.hpp", "include/tudocomp/io/InputAlloc.hpp:find_or_construct", "include/tudocomp/io/InputSize.hpp", "include/tudocomp/io/InputStream.hpp", "include/tudocomp/io/RestrictedBuffer.hpp"], "id": "C49"}
{"title": "The driver reads back what it writes", "statement": "For every registered lossless algorithm whose id contains no percent sign and has at most 1023 bytes, decompressing the file the driver wrote yields the input, whether read from memory, a file or stdin, with or without the algorithm given again, and whatever the output files contained before; without header (--raw) it holds when the algorithm is given. An id with a percent sign is refused; a longer id is written but rejected when reading.", "quantifier": "every algorithm id, every compressor, every input, every previous file content", "why_tests_cant": "quantifies over algorithms, ids and inputs", "anchors": ["src/tudocomp_driver/tudocomp_driver.cpp", "include/tudocomp/io/Output.hpp", "include/tudocomp/io/OutputStream.hpp"], "id": "C50"}
{"title": "Algorithm strings select what they say", "statement": "However algorithms are registered, evaluating an algorithm string ends, and gives each option the value last given for it by keyword, otherwise the one given at its position, otherwise its default; positional arguments after keywords, too many arguments, unknown options or algorithms, missing values and values of the wrong kind are refused. The registry picks an implementation exactly for the selection it was registered under (selections are compared by a strict total order); the id printed for a registered algorithm selects that algorithm and no other, and does select it if the left-out options have defaults. Creating an algorithm of a given C++ type from an option string is refused or yields options for exactly the template arguments of that type. No type ever has two algorithms of the same name or an algorithm two options of the same name. The empty string is not a usable option value, neither as default nor when given.", "quantifier": "every sequence of registrations, every algorithm string and option string", "why_tests_cant": "unbounded nesting, arbitrary declarations and argument combinations", "anchors": ["include/tudocomp/AlgorithmStringParser.hpp: eval, cl_eval, pattern_eval", "include/tudocomp/Meta.hpp: Meta, OptionBuilder, gather_types", "include/tudocomp/Registry.hpp: register_algorithm, parse_algorithm_id, select, select_algorithm", "include/tudocomp/CreateAlgorithm.hpp: Builder::env", "include/tudocomp/util/algorithm_parser/AlgorithmPattern.hpp: operator<, operator==, to_string"], "id": "C51"}
{"title": "Counter counts and ranks", "statement": "After increase(x) for each element of a sequence, getCount(x) is the number of occurrences of x, getNumItems() the number of distinct elements, getSorted() lists every element seen exactly once with its count, more frequent ones first and equally frequent ones by value, and createRanking() maps each to its place in that list.", "quantifier": "every sequence shorter than 2^64", "why_tests_cant": "all sequences", "anchors": ["include/tudocomp/util/Counter.hpp"], "id": "C52"}
{"title": "ESP with the sorted SLP coder is lossless, or ends at a check", "statement": "Renumbering the rules of the ESP grammar keeps the text it expands to and leaves the left-hand sides in ascending order. For every byte string of fewer than 2^32 bytes, compressing with the sorted SLP coder and right-hand-side coding plain or diff ends and decompressing gives the string back. The same holds for succinct (strategy optimal or greedy) with the subsequence numbers coded plainly, and, up to 2^30 bytes, with the subsequence numbers in a wavelet tree (the default). Both strategies split the positions into monotone subsequences, and the optimal one takes a longest monotone subsequence of what is left every time. With range_fit (wt off, any threshold, zero_min on or off) the compressor ends the program at a failing CHECK exactly if the grammar has a rule, the minima are written as unary differences and one of them is not zero (there are such texts of 31 bytes); in every other case decompressing gives the string back.", "quantifier": "every byte string shorter than 2^32; every threshold", "why_tests_cant": "the renumbering walks intrusive linked lists whose shape depends on the whole grammar, and the coders switch representation on computed sizes", "anchors": ["include/tudocomp/compressors/esp/SLPDepSort.hpp: slp_dep_sort", "include/tudocomp/compressors/esp/SortedSLPCoder.hpp", "include/tudocomp/compressors/esp/DRCoder.hpp: DPlain, DDiff, DRangeFit, DWaveletTree, DMonotonSubseq, encode_unary_diff, decode_unary_diff", "include/tudocomp/compressors/esp/MonotoneSubsequences.hpp", "include/tudocomp/compressors/esp/SubseqStrategy.hpp: SubSeqOptimal, SubSeqGreedy", "include/tudocomp/compressors/esp/wt_pc.hpp: wt_pc"], "id": "C53"}
{"title": "uint_t<N> is arithmetic modulo 2^N", "statement": "For 2 <= N <= 64, storing any integer of any built-in type in a uint_t<N> keeps it modulo 2^N and reading it into a type that can hold it returns it. Every compound assignment (+= -= *= &= |= ^=) with an operand of any type it compiles for, signed or not, leaves the exact result modulo 2^N, so a whole history of them ends with the exact integer modulo 2^N; /= and %= by a positive operand and shifts below the width of the type computed in are exact. ++ and -- wrap around and their postfix forms return the old value. The binary operators return the exact result in the 64-bit result type (modulo 2^64 if that is unsigned), and the comparisons compare values as long as no negative operand is converted to unsigned. numeric_limits<uint_t<N>>::max() is 2^N - 1 for N <= 53 (and wrong from 54 on).", "quantifier": "every width 2..64, every operand value and type, every sequence of operations", "why_tests_cant": "unbounded histories and 2^64 operand values per width; the defects are at widths no instantiation in the tests uses", "anchors": ["include/tudocomp/util/IntegerBase.hpp: IntegerBase, ConversionTraits", "include/tudocomp/ds/uint_t.hpp: uint_t, numeric_limits"], "id": "C54"}
{"title": "LZ78/LZW with rolling-hash tries are lossless exactly as far as fingerprints differ", "statement": "With RollingTrie or RollingTriePlus, an unlimited dictionary and any rolling hash, decompressing what LZ78 (LZW) wrote gives the text back whenever the phrases of the textbook LZ78 (LZW) parse of the text have pairwise different fingerprints. With the Wordpack hash this is so for every text without NUL whose phrases are at most 7 letters long. It is not so in general: for every rolling hash with 64-bit keys, in particular Wordpack and Karp-Rabin with whatever random table, some text of at most 91 bytes is compressed without any error to a file that restores a different text (for Wordpack a printable ASCII one). With ExtHashTrie, both compressors are lossless on every text without NUL, LZW also for every dict_size >= 257.", "quantifier": "every byte string shorter than 2^32 - 258, every rolling hash, every correct coder", "why_tests_cant": "collisions of 64-bit fingerprints do not show up in random tests", "anchors": ["include/tudocomp/compressors/lz78/RollingTrie.hpp", "include/tudocomp/compressors/lz78/RollingTriePlus.hpp", "include/tudocomp/compressors/lz78/ExtHashTrie.hpp", "include/tudocomp/util/Hash.hpp: WordpackRollingHash, ZBackupRollingHash", "include/tudocomp/util/hash/rabinkarphash.h: KarpRabinHash", "include/tudocomp/compressors/LZ78Compressor.hpp", "include/tudocomp/compressors/LZWCompressor.hpp"], "id": "C55"}
{"title": "LFS with the suffix tree strategies is lossless", "statement": "For every text and every suffix tree of it, visited in any order, the strategies ST, SimST and BST of the LFS compressor run without an out of range access and yield a valid set of rules: every rule is a factor of the text of at least min_lrf characters, its uses are occurrences of it, do not overlap, and there are at least two of them. The compressor with any of them (and any coders that are right on a shared bit stream) restores the text. The domain is min_lrf >= 1 (for SimST 1 <= min_lrf < 65536) and, for ST, no internal node at string depth 400 or more; outside of it the strategies fail: min_lrf = 0 (SimST: every multiple of 65536) never stops in range, and ST writes outside its bins at the first node of depth 200 or more if that is 400 or more.", "quantifier": "every text of fewer than 2^32 bytes, every suffix tree (any numbering, any order of children), every order of traversal, every min_lrf, every pair of coders", "why_tests_cant": "The greedy choice of rules depends on the shape of the whole tree and on which positions earlier rules have used up; a test covers a few trees. The failures need texts with repeats of 400 characters or extreme option values.", "anchors": ["include/tudocomp/compressors/lfs/STStrategy.hpp:STStrategy::compute_rules", "include/tudocomp/compressors/lfs/SimSTStrategy.hpp:SimSTStrategy::compute_rules", "include/tudocomp/compressors/lfs/BSTStrategy.hpp:BSTStrategy::compute_rules", "include/tudocomp/compressors/LFSCompressor.hpp"], "id": "C56"}
{"title": "LFS2 and LFS2BST are lossless on first use", "statement": "For every text, every suffix tree of it visited in any order, every min_lrf >= 1 and both values of the option exact, compressing with a new LFS2 or LFS2BST object and decompressing restores the text, with any coders that are right on a shared bit stream; with the default Huffman coder this holds for texts without the byte 255 of fewer than 2^31 characters, and with the byte 255 compression always fails. For LFS2 the text must contain a character besides NUL or be shorter than min_lrf: otherwise it reads in front of the text. min_lrf = 0 runs out of range. An LFS2 object that has compressed another text before may write a file that does not decompress to the second text.", "quantifier": "every text, every suffix tree and order of traversal, every min_lrf, both values of exact, every pair of coders", "why_tests_cant": "The rules are nested: occurrences inside a rule that was made earlier are replaced in its defining occurrence only, so that correctness depends on the whole history of replacements. The tests compress each text with a new object.", "anchors": ["include/tudocomp/compressors/lfs/LFS2Compressor.hpp:LFS2Compressor::compress", "include/tudocomp/compressors/lfs/LFS2Compressor.hpp:LFS2Compressor::decompress", "include/tudocomp/compressors/lfs/LFS2BSTCompressor.hpp"], "id": "C57"}
{"title": "The suffix tree of the ST strategy is correct", "statement": "For every text, building SuffixTree over it terminates without an out of range access or null pointer, in a bounded number of loop rounds, and gives a suffix tree: every node is reached from the root in one way, edges are non-empty with distinct first letters per node, internal nodes except the root branch, the path to a leaf spells the suffix the leaf is labelled with, the words readable from the root are exactly the words of the text, the suffix link of an internal node leads to the node without the first letter, and there are at most 2n nodes. If the last letter occurs nowhere else (the null-terminated input of the LFS compressor), every suffix has exactly one leaf, and the LFS compressor with the ST strategy on this tree, for any iteration order of the child maps, any min_lrf >= 1 and a text without a repeated word of 400 letters, is lossless. Without a terminator some suffixes have no leaf.", "quantifier": "every text, every iteration order of the unordered maps, every min_lrf >= 1, every pair of coders", "why_tests_cant": "Ukkonen's construction is incremental: an error in the active point or in a suffix link shows only after particular sequences of splits. The unit test compares a handful of short texts, and the order of an unordered_map depends on the standard library.", "anchors": ["include/tudocomp/ds/SuffixTree.hpp:SuffixTree::add_char", "include/tudocomp/ds/SuffixTree.hpp:SuffixTree::append_input", "include/tudocomp/compressors/lfs/STStrategy.hpp:STStrategy::compute_string_depth"], "id": "C58"}
{"title": "The suffix tree in arrays is the suffix tree, and LFS with BST and LFS2BST are lossless on it", "statement": "For every text of at least two (and fewer than 2^31) characters, building BinarySuffixTree over it terminates, never reads or writes outside its arrays (which are reserved for 2n entries), and the arrays then hold a suffix tree: under an injective numbering of the nodes with the root as 0, get_first_child and get_next_sibling list exactly the children of every node, get_first_child is 0 exactly for the leaves, and start, end and suffix are those of the tree that SuffixTree builds for the text, which is a suffix tree (C58). The visit of LFS therefore sees the same tree, and on every null-terminated text the LFS compressor with the BST strategy and LFS2BST are lossless for every min_lrf >= 1 (with the default Huffman literals: if the byte 255 does not occur). A text of one character makes the construction write outside its arrays; LFS2BST with min_lrf = 1 does so on the empty input.", "quantifier": "every text of 2 to 2^31 - 1 characters, every min_lrf >= 1, every pair of coders", "why_tests_cant": "The sibling chains are spliced in place when an edge is split; whether the previous sibling is the right one, and whether 2n - 1 entries are enough, depends on the sequence of splits. No unit test covers the class on its own.", "anchors": ["include/tudocomp/ds/BinarySuffixTree.hpp:BinarySuffixTree::add_char", "include/tudocomp/ds/BinarySuffixTree.hpp:BinarySuffixTree::reserve", "include/tudocomp/compressors/lfs/BSTStrategy.hpp:BSTStrategy::compute_string_depth", "include/tudocomp/compressors/lfs/LFS2BSTCompressor.hpp:LFS2BSTCompressor::compress"], "id": "C59"}
{"title": "rigtorp::HashMap behaves as a finite map", "statement": "On a new HashMap, for every hash function, every requested bucket count and every history of insert, m[k] updates, erase, clear, rehash, reserve, at, count and size whose keys differ from the empty key, every call ends without leaving the table and answers exactly as a finite map does (insert does not overwrite and tells whether the key is new, m[k] starts from the default value, erase tells how many entries it removed, at throws for a missing key), and iteration then yields every entry of that map exactly once. The number of buckets is always a power of two and at most half of them are full. Using the empty key is accepted without a message when assertions are off: it is inserted again and again, is counted and is never iterated.", "quantifier": "every key and value type with decidable equality, every hash function, bucket count, empty key and history of calls with other keys", "why_tests_cant": "Deletion moves entries back over a hole, around the end of the table; whether an entry stays reachable depends on the ideal places of all entries of its cluster, that is, on the hash function and the history.", "anchors": ["include/tudocomp/compressors/esp/HashMap.h:HashMap::emplace_impl", "include/tudocomp/compressors/esp/HashMap.h:HashMap::erase_impl", "include/tudocomp/compressors/esp/HashMap.h:HashMap::find_impl", "include/tudocomp/compressors/esp/HashMap.h:HashMap::reserve"], "id": "C60"}
{"title": "ESP output does not depend on the IPD map, and is lossless with each of them", "statement": "For every byte text below 2^32 characters, compressing with ESP yields the same grammar and the same file whichever registered IPD map is chosen: std_unordered_map with any order of iteration, hash_map with any hash function, or dynamic_size over either of them. Decompression gives the text back, with the plain and (up to 2^30 characters) with the sorted SLP coder. dynamic_size answers every history of accesses as a finite map does provided that the value of a key is larger than both its parts (as grammar rule numbers are) and below 2^56; without that proviso an entry whose key looks like an empty slot of the current width is lost: over hash_map the key (65535, 65535) with the value 1 is forgotten.", "quantifier": "every text, every registered map, every iteration order and hash function; every history of accesses within the stated domain", "why_tests_cant": "The map changes its bit width at points that depend on the data, the copy depends on iteration order, and the key of the empty slots changes its meaning with the width; the tests run a few texts with one standard library.", "anchors": ["include/tudocomp/compressors/esp/DynamicSizeIPD.hpp:DynamicSizeIPD::IPDMap::access", "include/tudocomp/compressors/esp/HashMapIPD.hpp:HashMapIPD::IPDMap::access", "include/tudocomp/compressors/esp/StdUnorderedMapIPD.hpp:StdUnorderedMapIPD::IPDMap::access", "include/tudocomp/compressors/esp/GrammarRules.hpp:GrammarRules::add", "include/tudocomp/compressors/esp/EspContextImpl.hpp:EspContext::generate_grammar"], "id": "C61"}
{"title": "LZW over the Cedar trie is lossless for the bytes 1 to 254; with the bytes 0 and 255, and in LZ78, it is not", "statement": "With the double-array dictionary CedarTrie and any coder, LZW compression of every text over the bytes 1 to 254 (below 2^32 characters) produces exactly the factors an ideal dictionary gives, and decompression returns the text, no matter which blocks are opened, closed and searched and which nodes are relocated by collisions. Outside that domain it fails: there is a text over the bytes 0, 1 and 2 that LZW compresses without complaint into a file that decompresses to something else, and LZ78 (whose root is a relocatable node below the escape node, although its position is remembered once and for all) reads outside the array for the three letters a, 1, a and for a text of sixteen printable letters.", "quantifier": "every text over the bytes 1 to 254 of less than 2^32 - 258 characters, every coder that is lossless", "why_tests_cant": "Relocation, block lists and rejection counters depend on the whole history of insertions; the repository tests a handful of short texts, while the failing ones need a particular collision.", "anchors": ["include/tudocomp/compressors/lz78/CedarTrie.hpp:CedarTrie", "include/tudocomp/compressors/lz78/cedar.hpp:da::update", "include/tudocomp/compressors/lz78/cedar.hpp:da::_follow", "include/tudocomp/compressors/lz78/cedar.hpp:da::_resolve", "include/tudocomp/compressors/lz78/cedar.hpp:da::_pop_enode", "include/tudocomp/compressors/lz78/cedar.hpp:da::_push_enode", "include/tudocomp/compressors/lz78/cedar.hpp:da::_find_place", "include/tudocomp/compressors/LZWCompressor.hpp:LZWCompressor::compress", "include/tudocomp/compressors/LZ78Compressor.hpp:LZ78Compressor::compress"], "id": "C62"}
