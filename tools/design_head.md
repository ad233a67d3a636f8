# Formal model of tudocomp in Rocq/Coq — design

## Method

* Every modelled C++ function becomes a total, computable Gallina function; each definition cites
  the file and lines it models and says where it simplifies. Loops become structural recursion or
  recursion on explicit fuel with a distinct out-of-fuel outcome (`None`); theorems prove that the
  stated fuel suffices.
* Integers: `N`/`nat` where no overflow can matter (the theorems then carry the size bound, mostly
  `length text < 2^32`, the range of `len_t`), and explicit `mod 2^w` where the C++ type wraps and
  the property is sensitive to it. Bytes are `N` below 256. Undefined behaviour (out-of-bounds
  access, over-wide shifts, uninitialised reads, failed assertions of the debug build) is `None`, so
  a theorem that says "= Some .." also says the code stays inside its arrays.
* Streams: a file is a `list N` of bytes; a stream state is a record.
* `Xxx.v` contains the model, `XxxSpec.v` the small specification (written without the model's
  helpers), `XxxProofs.v` lemmas, `PropXxx.v` the property theorems, each followed by
  `Print Assumptions` and by examples that show that its hypotheses can be met.
* A property that is false of the code as written is proved false (`.._refuted`), its statement in
  properties.jsonl is reworded to the exact domain, and that is proved beside it.
* Randomness, time, memory addresses, the C++ standard library's freedom (unstable sort order, heap
  layout, unordered iteration) are parameters over which the theorems quantify.

## Plan and proof idea per property (statements: properties.jsonl)

| ids | model | proof idea |
|---|---|---|
| C01, C02 | BitIO.v: BitOStream/BitIStream as byte-level state machines incl. destructor and look-ahead | closed form of the file = bits padded + trailer; simulation of the reader by a list of bits |
| C03-C05, C07 | IntCodes.v: integer codes over the bit stream, vbyte | read after write with arbitrary suffix; induction on digits |
| C06, C27 | Coders.v: coders as functions from typed calls to bits; ByteComp.v | per-call self-delimiting lemma + C01 |
| C08, C09 | ByteComp.v: RLE, MTF as list transducers with their state | invariant relating encoder/decoder state |
| C10-C13 | LZ.v: LZ78, LZW over a trie interface | simulation invariant between dictionary states |
| C14, C15 | Tries.v: binary, sorted binary, ternary and hash tries on arrays | representation invariant, refinement of a finite map |
| C16-C18, C40 | LZSS.v, Strategies.v, PlcpStrategy.v: factor buffer, flatten, text coding, sliding window, all LCP driven strategies | decode = text by induction on the parse; maximality of factors; priority-queue invariants |
| C19 | LCPDec.v: decode buffers | invariant: pending references are exactly the unresolved ones |
| C20-C22 | Escape.v: EscapeMap, restricted buffer/stream | list homomorphisms |
| C23 | BWT.v | LF-mapping is the inverse permutation; counting argument |
| C24 | Huffman.v: table construction in place, canonical code, header | tree invariant on the array; Kraft; exchange argument for optimality |
| C25, C52 | SLE.v: k-mer table, ranked alphabet; Counter | encoder and decoder tables agree; per-call relation |
| C26 | Arith.v: code blocks on 64-bit intervals | nested intervals never overlap; block-wise simulation; exact domain |
| C28, C50 | Chain.v, driver header | composition of restrictions and streams |
| C29 | RePair.v | each replacement round preserves the expansion; most frequent pair |
| C30 | IntVec.v: packed vectors, slices | memory as list of 64-bit words; refinement of arrays |
| C31, C32 | RankSelect.v | block invariants, counting |
| C33, C34 | MaxQueues.v | heap / bucket-list invariants over all histories |
| C35, C36 | SAComp.v: ISA, Phi, PLCP, LCP, sparse ISA, Sada and compressed LCP | suffix order lemmas; PLCP descent by at most 1 |
| C37, C39 | UtilArith.v: generators, helpers | induction; refuted where off |
| C38, C48 | Json.v, Stat.v | independent JSON parser; reference report from the history of events |
| C41, C51 | AlgParser.v, AlgEval.v: parser, printer, registry, evaluation | grammar as relation: sound + complete; meaning relation unique |
| C42 | Lfs.v, BitCoders.v: LFS encoder, ESA strategy, coders sharing a stream | dead-position invariant: all earlier rules at least as long, so two end checks suffice |
| C43 | LZ78U.v: factorization over the suffix tree, both strategies, decompressor | invariant: R maps marked nodes to factors that expand to the node's string; a relation giving the meaning of the calls of a factor, refined by encoder and decoder |
| C44 | CompactHash.v: virtual/change bits, sparse groups, quotient/displacement, growth; CompactTrie.v: LZW, LZ78 over it | runs of slots as a periodic array, group invariant on the v/c bits, growth = re-insertion; refinement of a finite map |
| C45 | HashMap.v | probe-sequence invariants, termination characterised by prober and size manager |
| C46 | View.v | lists |
| C47 | esp rounds: alphabet reduction, landmarks, meta blocks, block adjustment, grammar rules, plain SLP coder, expansion (Esp.v) | pointwise landmark facts give blocks of 1..3; block adjustment by decreasing number of 1-blocks with the invariant that type 2 is never followed by type 3; rounds by an invariant on what each symbol generates |
| C53 | SlpSort.v (renumbering lists, sorted SLP coder frame), DCodings.v (codings of the right-hand sides), Succinct.v and SubOptimal.v (monotone subsequences, greedy and optimal), WtCoding.v (wavelet tree) | renumbering as a permutation that respects derivations; coder frame for any coding that gives its list back; exact abort condition for range_fit; layers of the optimal strategy as antichains, so that no chain is longer |
| C54 | UintT.v (bit field of N bits, usual arithmetic conversions, dispatch of each operator and operand type) | congruence modulo 2^N of every ring and bitwise operator; induction over the history |
| C55 | RollTrie.v (rolling hashes, RollingTrie, ExtHashTrie, both compressors over them) | simulation of the textbook trie as long as the map from phrases to fingerprints is injective; pigeonhole over the 256^9 strings of length 9 for the loss; base-257 digits for Wordpack |
| C56 | LfsTree.v (STStrategy, SimSTStrategy, BSTStrategy over an abstract suffix tree) | the invariant of C42 (rules, uses, dead positions), lists of begin positions are sorted occurrences of the node's word |
| C57 | Lfs2.v (both layers, encoder, decoder, state kept between calls) | invariant over both layers: first-layer blocks are disjoint uses, a second-layer symbol lies in the defining occurrence of an earlier rule; the items written spell the rule; dictionary read from the last rule |
| C58 | Ukk.v (Ukkonen's construction with suffix links, active point and child maps; the visit by STStrategy) | invariant of the tree (each node has a place in the text where its word occurs), of the active point and of the links; inserting a leaf and splitting an edge keep it; a repeated letter below a node without link forces the active point onto a node; measure on remainder and active length |
| C59 | Bst.v (BinarySuffixTree: first child, next sibling, start, end, link and suffix arrays, every access checked; the visits by BSTStrategy and LFS2BST) | simulation: round by round the arrays hold the nodes of Ukk.v (C58), sibling chains in insertion order; bounds from the invariant that at most 2·suffix nodes exist |
| C60 | RigHash.v (rigtorp::HashMap with its masks, probing, rehash and deletion) | invariant: no empty slot between the ideal and the actual place of an entry, keys unique, at most half full; deletion: the same except for the hole, and entries between hole and cursor do not need it |
| C61 | EspIpd.v (the IPD maps, GrammarRules and the rounds over any of them) | each map simulates an association list under permutations as long as values exceed key parts; the rules array is filled the same way in every order, so the grammar is that of Esp.v |
| C62 | Cedar.v (cedar.hpp in the configuration of CedarTrie: cells, rings of free cells, three lists of blocks, _follow, _resolve, _find; CedarTrie and the loops of LZ78 and LZW over it) | two invariants: the cells are partitioned into used ones and per-block rings, the blocks into the lists; the array codes a tree whose sibling lists are sorted. Insertion renames nodes injectively and fixes the root's children, so the remembered positions of nodes 1 to 254 stay right |
| C49 | InputObj.v: Input, InputAlloc, streams, views, mmap | pool of restricted copies; every access shows the same bytes |

## Trusted base

* The kernel of Coq 8.16.1 (the proofs are also re-checked by `coqchk` in `vcheck`).
* The hand translation of the C++ text into the model (tested by mutations: seeded/LOG.jsonl).
* Axioms: none. `Print Assumptions` says "Closed under the global context" for every theorem
  listed at the end of this file. (`coqchk` additionally lists the opaque constants of the
  library file `Coq.ssr.ssrunder`, which is loaded with `Lia`; nothing depends on them.)
* Only the Coq standard library is used.

## What is not modelled

* divsufsort (util/divsufsort*): its contract `is_sa` (a permutation sorting the suffixes) is the
  hypothesis of the suffix-array theorems; existence of such an array is witnessed by examples.
* sdsl (compressed suffix trees, the cst of SimST and LFS2; wavelet trees), boost heaps (modelled by their
  contract), Judy, std::unordered_map (any iteration order), the hash functions (arbitrary functions
  in the theorems). Of cedar.hpp: save/open, predict, erase, reduced tries, tracked nodes, and overflow of its
  int indices.
* The standalone `huff::encode/decode` of HuffmanCoder.hpp;
  the ESP codings d_huffman and d_arithmetic; debug logging; malloc.cpp's dlsym wrapper.
* Concurrency: the library is single threaded; the only shared state (StatPhase's current phase,
  the pool of an Input) is modelled sequentially.
* Lifetime errors such as an InputView that outlives its Input.
* I/O failures of the operating system (short reads, full disks), and memory exhaustion.

## Findings (defects of the code, each proved as a `_refuted` theorem)

LZ78 over CedarTrie keeps the position of its root although the double array moves that node, and reads outside
the array (a text of three letters suffices); LZW over it loses texts with the bytes 0 or 255 in the same way;
rigtorp::HashMap accepts its empty key, and esp::DynamicSizeIPD over it forgets keys that look like an empty
slot unless their value is larger (ESP is not affected: rule numbers are); BinarySuffixTree writes outside its arrays for a text of one character (LFS2BST on the empty input with
min_lrf = 1); lfs ST writes outside its 200 bins at a node 400 characters deep, min_lrf = 0 (SimST: any multiple of
65536) runs out of range, LFS2 reads in front of a text of NULs only and keeps its rules when the
object is used again; LZ78/LZW with a rolling-hash trie compare fingerprints only, so for every hash some short text is
silently replaced by another (Wordpack: a plain ASCII text of 91 bytes; it also drops a NUL at the start
of a phrase, and ZBackup, the default argument, an FF, and misreads "aaa" in LZW); numeric_limits<uint_t<N>>::max()
is 0 for N = 54..63 and undefined for 64;
ArrayMaxHeap::remove does not percolate up, so lcpcomp(comp=heap) may emit overlapping factors;
the Huffman coder writes out of bounds when byte 255 meets another byte (also lfs_comp with its
default coder); the arithmetic coder fails on empty or all-NUL texts, loses 0xFF and corrupts texts
where NUL is rarer than other bytes or calls are interleaved; the SLE coder fails for k = 0 and
k >= 8 and drops unannounced literals; Bulldozer emits no factors; threshold 0 crashes or hangs;
LZ78 with a hash trie drops NULs at the root and its clear() is a no-op; RePair fails on the empty
input; isqrt is capped at 15; Thue-Morse has half the documented length; RunRich is off by one;
JSON keys and backslashes are not escaped; StatPhase loses a pause on log/child start/to_json and
leaves 64-character titles unterminated; View::remove_suffix(size()+1) is accepted; the tail slice of a
bounded slice of an Input reads past its end; stream slices with escape restrictions go wrong at the
end of the data; driver ids longer than 1023 bytes are written but cannot be read; HashMap recurses
or loops forever with some size managers/probers; the algorithm-string parser ignores trailing
text, does not escape quotes when printing and rejects a number at the end of the text; option values
that are empty strings cannot be used; the range_fit coding of the sorted ESP coder aborts at a CHECK
that counts sign bits it does not write; the compact sparse hash table accesses m_buckets out of bounds
when a run of full slots reaches the last slot and slot 0 is free, has 4032 buckets whatever its
capacity, returns a stale reference from index() when a table of at most 64 slots grows (so
lz78(compact_sparse_hash) loses texts such as noonoy), and insert() does not overwrite although its
comment says so; LZ78U stores factor ids in entries of bits_for(max_z) bits although there can be more
factors (texts are lost), and does not end with threshold 0.
