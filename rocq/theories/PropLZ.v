(** Properties C10-C13: LZ78 and LZW are lossless. *)
From Verif Require Import Base BitIO IntCodes Coders CodersProofs LZ LZProofs LZ78BoundedSpec LZ78BoundedProofs.
Local Open Scope N_scope.

(** C10. With an unlimited dictionary (dict_size = 0), a trie behaving like a
    dictionary and a coder that handles signed [char] literals (ASCII, Bit),
    decompress(compress(text)) = text for every text.  [fuel] bounds the number of
    factors the decompressor may read; any number from |text| on does. *)
Theorem lz78_roundtrip : forall lim t c text,
  trie_ok lim t -> coder_ok_char c -> bytes_ok text ->
  N.of_nat (length text) + 1 < lim -> N.of_nat (length text) + 1 < 2 ^ 32 ->
  exists f, lz78_compress t 0 c text = Some f /\
    forall fuel, (length text <= fuel)%nat -> lz78_decompress c fuel f = Some text.
Proof. exact (fun lim t c text => lz78_char_pf lim t 0 c text (or_introl eq_refl)). Qed.
Print Assumptions lz78_roundtrip.

(** C10. Any other correct coder (Elias, ternary): every text whose last byte is
    an ASCII character. *)
Theorem lz78_roundtrip_ascii_end : forall lim t c text,
  trie_ok lim t -> coder_ok c -> bytes_ok text -> last text 0 < 128 ->
  N.of_nat (length text) + 1 < lim -> N.of_nat (length text) + 1 < 2 ^ 32 ->
  exists f, lz78_compress t 0 c text = Some f /\
    forall fuel, (length text <= fuel)%nat -> lz78_decompress c fuel f = Some text.
Proof. exact (fun lim t c text => lz78_pf lim t 0 c text (or_introl eq_refl)). Qed.
Print Assumptions lz78_roundtrip_ascii_end.

(** C10, finding.  The restriction cannot be dropped: the left-over literal is
    passed as a signed [char]; the ternary coder garbles it (decoding the file for
    the text C8 C8 fails), and the Elias coders shift by more than the word width. *)
Theorem lz78_high_byte_end_refuted :
  (exists f, lz78_compress spec_trie 0 (simple_coder Ternary) [200; 200] = Some f /\
             lz78_decompress (simple_coder Ternary) 2000 f <> Some [200; 200]) /\
  lz78_compress spec_trie 0 (simple_coder Gamma) [200; 200] = None /\
  lz78_compress spec_trie 0 (simple_coder Delta) [200; 200] = None.
Proof.
  split; [|split; vm_compute; reflexivity].
  eexists; split; [vm_compute; reflexivity|vm_compute; discriminate].
Qed.
Print Assumptions lz78_high_byte_end_refuted.

(** C11.  dict_size = dms, any trie and any correct coder: lossless for every text
    whose LZ78 parse has fewer than dms factors, and for every text if dms <= 1
    (dms = 0 means unlimited; with dms = 1 the size, which counts the root, never
    equals dms). *)
Theorem lz78_bounded_roundtrip : forall lim t dms c text,
  dms <= 1 \/ N.of_nat (length (lz78_factors text)) < dms ->
  trie_ok lim t -> bytes_ok text ->
  N.of_nat (length text) + 1 < lim -> N.of_nat (length text) + 1 < 2 ^ 32 ->
  coder_ok_char c \/ (coder_ok c /\ last text 0 < 128) ->
  exists f, lz78_compress t dms c text = Some f /\
    forall fuel, (length text <= fuel)%nat -> lz78_decompress c fuel f = Some text.
Proof.
  intros lim t dms c text Hd Ht Hb Hl H32 Hc. 
  pose proof (lz78_b_pf lim t dms c text Ht Hb Hl H32 Hc (or_intror Hd)) as H.
  rewrite (read_back_one_epoch dms text Hd) in H. exact H.
Qed.
Print Assumptions lz78_bounded_roundtrip.

(** C11.  The exact result for every text and every dict_size, with a coder whose
    decode() ignores the announced maximum (every simple coder but Bit): the
    decompressor yields [lz78_read_back dms text] (see LZ78BoundedSpec.v): factors
    of later epochs are read with the first epoch's phrases. *)
Theorem lz78_bounded_exact : forall lim t dms c text,
  (forall a b s, c_dec c (RInt 0 a) s = c_dec c (RInt 0 b) s) ->
  trie_ok lim t -> bytes_ok text ->
  N.of_nat (length text) + 1 < lim -> N.of_nat (length text) + 1 < 2 ^ 32 ->
  coder_ok_char c \/ (coder_ok c /\ last text 0 < 128) ->
  exists f, lz78_compress t dms c text = Some f /\
    forall fuel, (length text <= fuel)%nat -> lz78_decompress c fuel f = Some (lz78_read_back dms text).
Proof. intros. apply (lz78_b_pf lim); auto. Qed.
Print Assumptions lz78_bounded_exact.

(** C11.  dict_size = 2 (every phrase is a single letter): lossless. *)
Theorem lz78_bounded_two : forall lim t c text,
  (forall a b s, c_dec c (RInt 0 a) s = c_dec c (RInt 0 b) s) ->
  trie_ok lim t -> bytes_ok text ->
  N.of_nat (length text) + 1 < lim -> N.of_nat (length text) + 1 < 2 ^ 32 ->
  coder_ok_char c \/ (coder_ok c /\ last text 0 < 128) ->
  exists f, lz78_compress t 2 c text = Some f /\
    forall fuel, (length text <= fuel)%nat -> lz78_decompress c fuel f = Some text.
Proof.
  intros lim t c text Hbl Ht Hb Hl H32 Hc. 
  pose proof (lz78_b_pf lim t 2 c text Ht Hb Hl H32 Hc (or_introl Hbl)) as H.
  rewrite (read_back_two text) in H. exact H.
Qed.
Print Assumptions lz78_bounded_two.

(** C11, finding.  For every dict_size k >= 3 some text is not recovered, whatever
    the (correct) trie and the (range-blind) coder:
    a aa aaa ... a^(k-1) b b c is decompressed to a aa aaa ... a^(k-1) b a c. *)
Theorem lz78_bounded_refuted : forall lim t co k a b c,
  (forall x y s, c_dec co (RInt 0 x) s = c_dec co (RInt 0 y) s) ->
  trie_ok lim t -> coder_ok co ->
  (3 <= k)%nat -> N.of_nat (k * (k - 1) + 8) < 2 ^ 32 -> N.of_nat (k * (k - 1) + 8) < lim ->
  a < 128 -> b < 128 -> c < 128 -> b <> c ->
  let pre := concat (map (repeat a) (seq 1 (k - 1))) in
  exists f, lz78_compress t (N.of_nat k) co (pre ++ [b; b; c]) = Some f /\
    forall fuel, (length (pre ++ [b; b; c]) <= fuel)%nat ->
      lz78_decompress co fuel f = Some (pre ++ [b; a; c]).
Proof.
  intros lim t co k a b c Hbl Ht Hc Hk H32 Hlim Ha Hb Hc' Hbc pre.
  pose proof (bad_text_len k a b c ltac:(lia)) as HL.
  destruct (read_back_bad k a b c Hk) as [HB|HB]; [|congruence].
  unfold pre. rewrite <- HB. fold (lz78_bad_text k a b c).
  apply (lz78_b_pf lim); auto; try lia.
  - apply bad_text_bytes; unfold byte_ok; lia.
  - right. split; [auto|]. unfold lz78_bad_text.
    replace [b; b; c] with ([b; b] ++ [c]) by reflexivity. rewrite app_assoc, last_last. lia.
Qed.
Print Assumptions lz78_bounded_refuted.

(** C11, finding.  With the Bit coder the announced maxima of the two sides differ
    after the first reset, so that even dict_size = 2 fails. *)
Theorem lz78_bounded_bit_refuted :
  exists f, lz78_compress spec_trie 2 (simple_coder BitC) [97; 98; 99] = Some f /\
            lz78_decompress (simple_coder BitC) 5 f <> Some [97; 98; 99].
Proof. eexists; split; [vm_compute; reflexivity|vm_compute; discriminate]. Qed.
Print Assumptions lz78_bounded_bit_refuted.
Theorem lz78_blind_coders : forall k, k <> BitC ->
  forall a b s, c_dec (simple_coder k) (RInt 0 a) s = c_dec (simple_coder k) (RInt 0 b) s.
Proof. exact simple_blind0. Qed.
Print Assumptions lz78_blind_coders.

(** Non-vacuity: with dict_size = 3, "abccd" becomes "abcad"; six factors under
    dict_size 7 come back. *)
Example lz78_bounded_run :
  lz78_read_back 3 [97; 98; 99; 99; 100] = [97; 98; 99; 97; 100] /\
  lz78_factors [97; 98; 97; 97; 98; 97; 97; 98; 98; 97] = [[97]; [98]; [97; 97]; [98; 97]; [97; 98]; [98; 97]] /\
  (exists f, lz78_compress spec_trie 7 (simple_coder BitC) [97; 98; 97; 97; 98; 97; 97; 98; 98; 97] = Some f /\
     lz78_decompress (simple_coder BitC) 20 f = Some [97; 98; 97; 97; 98; 97; 97; 98; 98; 97]).
Proof.
  split; [vm_compute; reflexivity|]. split; [vm_compute; reflexivity|].
  eexists; split; [vm_compute; reflexivity|vm_compute; reflexivity].
Qed.

(** C12.  LZW, unlimited dictionary. *)
Theorem lzw_roundtrip : forall lim t c text,
  trie_ok lim t -> coder_ok c -> bytes_ok text ->
  N.of_nat (length text) + 258 < 2 ^ 32 -> 2 ^ 32 - 1 <= lim ->
  exists f, lzw_compress t 0 c text = Some f /\
    forall fuel, (length text <= fuel)%nat -> lzw_decompress c 0 fuel f = Some text.
Proof. exact lzw_pf. Qed.
Print Assumptions lzw_roundtrip.

(** C13.  LZW, dict_size = dms >= 257: lossless for every text and coder whose
    decode() does not depend on the announced maximum (between 256 and dms). *)
Theorem lzw_bounded_roundtrip : forall lim t c dms text,
  trie_ok lim t -> coder_ok c -> bytes_ok text ->
  257 <= dms < 2 ^ 32 -> dms <= lim ->
  (forall a b s, 256 <= a <= dms -> 256 <= b <= dms -> c_dec c (RInt 0 a) s = c_dec c (RInt 0 b) s) ->
  exists f, lzw_compress t dms c text = Some f /\
    forall fuel, (length text <= fuel)%nat -> lzw_decompress c dms fuel f = Some text.
Proof. exact lzw_bounded_pf. Qed.
Print Assumptions lzw_bounded_roundtrip.

(** C13.  Which of the coders qualify: all but Bit for every dict_size, Bit up to 511. *)
Theorem lzw_bounded_coders : forall lim t k dms text,
  trie_ok lim t -> bytes_ok text -> 257 <= dms < 2 ^ 32 -> dms <= lim ->
  k <> BitC \/ dms <= 511 ->
  exists f, lzw_compress t dms (simple_coder k) text = Some f /\
    forall fuel, (length text <= fuel)%nat -> lzw_decompress (simple_coder k) dms fuel f = Some text.
Proof.
  intros lim t k dms text Ht Hb Hd Hl Hk.
  apply (lzw_bounded_pf lim); auto using simple_coder_ok.
  destruct Hk as [Hk|Hk]; [apply simple_blind; auto|].
  destruct k; try (apply simple_blind; discriminate). apply bitc_blind; auto.
Qed.
Print Assumptions lzw_bounded_coders.

(** C13, findings.  With the Bit coder and dict_size = 512 the two sides use
    different widths after the reset; with dict_size <= 256 the decompressor
    fails outright. *)
Definition lzw_bad_text : list N :=
  map N.of_nat (seq 0 256) ++ map (fun i => N.of_nat i * 2) (seq 0 20).
Theorem lzw_bounded_bit_refuted :
  exists f w, lzw_compress spec_trie 512 (simple_coder BitC) lzw_bad_text = Some f /\
    lzw_decompress (simple_coder BitC) 512 (length lzw_bad_text) f = Some w /\ w <> lzw_bad_text.
Proof. do 2 eexists; split; [vm_compute; reflexivity|]; split; [vm_compute; reflexivity|]. vm_compute. discriminate. Qed.
Print Assumptions lzw_bounded_bit_refuted.
Theorem lzw_tiny_dict_refuted :
  exists f, lzw_compress spec_trie 256 (simple_coder Ascii) [97; 98; 97; 98; 97; 98; 99] = Some f /\
    lzw_decompress (simple_coder Ascii) 256 2000 f = None.
Proof. eexists; split; [vm_compute; reflexivity|vm_compute; reflexivity]. Qed.
Print Assumptions lzw_tiny_dict_refuted.

(** Non-vacuity: the abstract trie meets [trie_ok]; concrete runs, one ending
    inside a known phrase, one with a code used right after its creation. *)
Example spec_trie_meets : trie_ok (2 ^ 32) spec_trie := spec_trie_ok _.
Example lz78_run :
  lz78_compress spec_trie 0 (simple_coder Ascii) [97; 98; 97; 97; 98; 97]
  = Some [48; 58; 97; 48; 58; 98; 49; 58; 97; 50; 58; 97; 0] /\
  lz78_calls spec_trie 0 [97; 97; 97; 97; 97]
  = Some [(0, RInt 0 0); (97, RLit); (1, RInt 0 1); (97, RLit); (1, RInt 0 2); (97, RLit)].
Proof. split; vm_compute; reflexivity. Qed.
Example lzw_run :
  lzw_calls spec_trie 0 [97; 97; 97; 97; 97; 97; 97]
  = Some [(97, RInt 0 256); (256, RInt 0 257); (257, RInt 0 258); (97, RInt 0 259)] /\
  (exists f, lzw_compress spec_trie 0 (simple_coder Delta) [97; 97; 97; 97; 97; 97; 97] = Some f /\
     lzw_decompress (simple_coder Delta) 0 7 f = Some [97; 97; 97; 97; 97; 97; 97]) /\
  (exists f, lzw_compress spec_trie 258 (simple_coder Ascii) [97; 97; 97; 98; 97; 97; 97; 98; 97; 97] = Some f /\
     lzw_decompress (simple_coder Ascii) 258 10 f = Some [97; 97; 97; 98; 97; 97; 97; 98; 97; 97]).
Proof. split; [vm_compute; reflexivity|]. split; eexists; (split; [vm_compute; reflexivity|vm_compute; reflexivity]). Qed.
