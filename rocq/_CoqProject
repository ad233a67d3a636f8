-Q theories Verif
theories/Base.v
theories/BitIO.v
theories/BitIOProofs.v
theories/PropBits.v
theories/IntCodes.v
theories/IntCodesProofs.v
theories/PropIntCodes.v
theories/Coders.v
theories/CodersProofs.v
theories/PropCoders.v
theories/ByteComp.v
theories/ByteCompProofs.v
theories/PropByteComp.v
theories/LZ.v
theories/LZProofs.v
theories/PropLZ.v
theories/Tries.v
theories/TriesProofs.v
theories/HashTrieProofs.v
theories/PropTries.v
theories/Escape.v
theories/EscapeProofs.v
theories/PropEscape.v
theories/LooseCoders.v
theories/LZSS.v
theories/LZSSSpec.v
theories/LZSSProofs.v
theories/WindowProofs.v
theories/PropLZSS.v
theories/LCPDec.v
theories/LCPDecProofs.v
theories/PropLCPDec.v
theories/SASpec.v
theories/BWT.v
theories/BWTProofs.v
theories/PropBWT.v
theories/IntVec.v
theories/IntVecProofs.v
theories/PropIntVec.v
theories/RankSelect.v
theories/RankSelectProofs.v
theories/SelectProofs.v
theories/PropRankSelect.v
theories/SAComp.v
theories/SACompProofs.v
theories/SparseProofs.v
theories/SadaProofs.v
theories/PropSAComp.v
theories/Strategies.v
theories/MaxQueues.v
theories/StrategySpec.v
theories/StrategyProofs.v
theories/PlcpStrategy.v
theories/PlcpStrategyProofs.v
theories/ArraysProofs.v
theories/MSLProofs.v
theories/HeapProofs.v
theories/LZSSLCPProofs.v
theories/PropStrategies.v
theories/PropMaxQueues.v
theories/Huffman.v
theories/HuffmanSpec.v
theories/HuffTreeProofs.v
theories/HuffCodeProofs.v
theories/HuffmanProofs.v
theories/HuffOptProofs.v
theories/PropHuffman.v
theories/UtilArith.v
theories/UtilSpec.v
theories/PropUtil.v
theories/Json.v
theories/JsonSpec.v
theories/PropJson.v
theories/Stat.v
theories/StatSpec.v
theories/PropStat.v
theories/RePair.v
theories/RePairSpec.v
theories/RePairProofs.v
theories/PropRePair.v
theories/View.v
theories/PropView.v
theories/InputObj.v
theories/InputSpec.v
theories/InputProofs.v
theories/PropInput.v
theories/Chain.v
theories/PropChain.v
theories/HashMap.v
theories/HashMapSpec.v
theories/HashMapProofs.v
theories/HashTermProofs.v
theories/HashTableProofs.v
theories/HashRefuteProofs.v
theories/HashSimProofs.v
theories/PropHashMap.v
theories/AlgParser.v
theories/AlgSyntax.v
theories/AlgListProofs.v
theories/AlgSoundProofs.v
theories/AlgCompleteProofs.v
theories/AlgComplete2Proofs.v
theories/PropAlgParser.v
theories/AlgEval.v
theories/AlgEvalSpec.v
theories/AlgEvalProofs.v
theories/AlgRegProofs.v
theories/PatOrderProofs.v
theories/PropAlgEval.v
theories/SLE.v
theories/SLESpec.v
theories/CounterProofs.v
theories/SLEProofs.v
theories/SLERelProofs.v
theories/PropSLE.v
theories/Arith.v
theories/ArithSpec.v
theories/ArithProofs.v
theories/ArithRelProofs.v
theories/ArithTabProofs.v
theories/PropArith.v
theories/BitCoders.v
theories/Lfs.v
theories/LfsSpec.v
theories/LfsProofs.v
theories/LfsEsaProofs.v
theories/PropLfs.v
theories/LZ78BoundedSpec.v
theories/LZ78BoundedProofs.v
theories/HashTrieNulProofs.v
theories/EspSpec.v
theories/Esp.v
theories/EspBlockProofs.v
theories/EspAdjustProofs.v
theories/EspProofs.v
theories/PropEsp.v
theories/SlpSort.v
theories/SlpSortProofs.v
theories/SlpCoderProofs.v
theories/DCodings.v
theories/DCodingsProofs.v
theories/PropEspSorted.v
theories/SubseqSpec.v
theories/Succinct.v
theories/SuccinctProofs.v
theories/SubseqRoundProofs.v
theories/SubseqGreedyProofs.v
theories/WtCoding.v
theories/WtProofs.v
theories/SubOptimal.v
theories/SubOptimalProofs.v
theories/CompactHash.v
theories/CompactHashSpec.v
theories/CompactSparseProofs.v
theories/CompactGroupProofs.v
theories/CompactInsertProofs.v
theories/CompactTableProofs.v
theories/CompactCoreProofs.v
theories/CompactKeyProofs.v
theories/CompactGrowProofs.v
theories/CompactMapProofs.v
theories/CompactOpsProofs.v
theories/CompactRunProofs.v
theories/PropCompactHash.v
theories/CompactTrie.v
theories/CompactTrieProofs.v
theories/PropCompactTrie.v
theories/LZ78U.v
theories/LZ78UProofs.v
theories/LZ78UDecProofs.v
theories/PropLZ78U.v
theories/UintT.v
theories/UintSpec.v
theories/UintProofs.v
theories/PropUint.v
theories/RollTrie.v
theories/RollSpec.v
theories/RollProofs.v
theories/RollLossProofs.v
theories/RollPolyProofs.v
theories/PropRoll.v
theories/LfsTree.v
theories/LfsTreeSpec.v
theories/LfsTreeProofs.v
theories/PropLfsTree.v
theories/Lfs2.v
theories/Lfs2Proofs.v
theories/Lfs2EncProofs.v
theories/PropLfs2.v
theories/Ukk.v
theories/UkkSpec.v
theories/UkkProofs.v
theories/UkkStepProofs.v
theories/UkkLoopProofs.v
theories/UkkTreeProofs.v
theories/UkkVisitProofs.v
theories/PropUkk.v
theories/Bst.v
theories/BstSpec.v
theories/BstProofs.v
theories/BstLoopProofs.v
theories/BstVisitProofs.v
theories/PropBst.v
theories/RigHashSpec.v
theories/RigHash.v
theories/RigHashProofs.v
theories/PropRigHash.v
theories/EspIpd.v
theories/EspIpdProofs.v
theories/PropEspIpd.v
theories/Cedar.v
theories/CedarRing.v
theories/CedarAlloc.v
theories/CedarTree.v
theories/CedarMove.v
theories/CedarStep.v
theories/CedarLoop.v
theories/CedarUpdate.v
theories/CedarLzw.v
theories/CedarInit.v
theories/PropCedar.v
