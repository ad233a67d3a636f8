(** C44, C15.  LZ78 and LZW with the trie compact_sparse_hash over the real table. *)
From Verif Require Import Base Coders LZ LZProofs Tries CompactTrie CompactRunProofs CompactTrieProofs.
Local Open Scope N_scope.

(** LZW (unlimited dictionary): for every text without NUL bytes whose LZW parse has
    fewer than 65278 codes and for every correct coder, if compressing succeeds then
    decompressing gives the text back. *)
Theorem lzw_compact_trie_roundtrip : forall c text cs f,
  coder_ok c -> bytes_ok text -> ~ In 0 text -> N.of_nat (length text) < 2 ^ 31 ->
  lzw_calls spec_trie 0 text = Some cs -> N.of_nat (length cs) + 258 < 2 ^ 16 ->
  lzw_compact c text = Some f ->
  forall fuel, (length text <= fuel)%nat -> lzw_decompress c 0 fuel f = Some text.
Proof.
  intros c text cs f Hc Hb H0 Hl Hcs Hn Hf fuel Hfu.
  assert (Hbig : (256 + length cs < big - 2)%nat).
  { replace big with (N.to_nat (2 ^ 16)) by (unfold big; rewrite N2Nat.inj_pow; reflexivity). lia. }
  pose proof (lzw_compact_calls text cs Hb H0 Hl Hcs Hbig c f Hf) as E.
  destruct (lzw_pf (2 ^ 32) spec_trie c text) as (f' & E' & D); auto using spec_trie_ok.
  - change (2 ^ 31) with 2147483648 in Hl. change (2 ^ 32) with 4294967296. lia.
  - change (2 ^ 31) with 2147483648 in Hl. change (2 ^ 32) with 4294967296. lia.
  - unfold lzw_compress in E'. rewrite Hcs in E'. cbn [obind] in E'. rewrite E in E'. apply Some_inj in E'. subst f'. auto.
Qed.
Print Assumptions lzw_compact_trie_roundtrip.
Definition abra : list N := [97; 98; 114; 97; 99; 97; 100; 97; 98; 114; 97; 97; 98; 114; 97].
Example lzw_compact_ex :
  option_map (length (A := call)) (lzw_calls spec_trie 0 abra) = Some 11%nat /\
  (do f <- lzw_compact (simple_coder Ascii) abra; lzw_decompress (simple_coder Ascii) 0 20 f) = Some abra.
Proof. split; vm_compute; reflexivity. Qed.

(** Findings.  LZ78 starts with a table of at most 32 slots, where index() can give the
    address of another element: "noonoy" comes back as "nonoy". *)
Theorem lz78_compact_trie_refuted :
  exists f, lz78_compact (simple_coder Ascii) [110; 111; 111; 110; 111; 121] = Some f /\
    lz78_decompress (simple_coder Ascii) 10 f = Some [110; 111; 110; 111; 121].
Proof.
  assert (X : (do f <- lz78_compact (simple_coder Ascii) [110; 111; 111; 110; 111; 121]; lz78_decompress (simple_coder Ascii) 10 f) = Some [110; 111; 110; 111; 121]) by (vm_compute; reflexivity).
  destruct (lz78_compact (simple_coder Ascii) [110; 111; 111; 110; 111; 121]) as [f|]; [|discriminate]. exists f. auto.
Qed.
Print Assumptions lz78_compact_trie_refuted.
