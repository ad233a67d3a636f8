(** Properties C08 (RLE), C09 (MTF), C27 (LiteralEncoder, Noop). *)
From Verif Require Import Base BitIO IntCodes Coders CodersProofs ByteComp ByteCompProofs.
Local Open Scope N_scope.

(** C08. The round trip holds for every text that does not end in two
    0xFF bytes, and every offset. *)
Theorem rle_roundtrip : forall offset t, is64 offset -> N.of_nat (length t) < 2 ^ 64 ->
  (forall p, t <> p ++ [255; 255]) ->
  exists e, rle_encode offset t = Some e /\ rle_decode offset e = Some t.
Proof. exact rle_roundtrip_pf. Qed.
Print Assumptions rle_roundtrip.
Example rle_ex : is64 3 /\ N.of_nat (length [255; 255; 7; 200; 200; 200; 65; 65; 65; 65]) < 2 ^ 64 /\
  (forall p, [255; 255; 7; 200; 200; 200; 65; 65; 65; 65] <> p ++ [255; 255]).
Proof.
  split; [reflexivity|]. split; [reflexivity|]. intros p H.
  apply (f_equal (@rev N)) in H. rewrite rev_app_distr in H. discriminate.
Qed.
Example rle_run_ex : rle_encode 0 [200; 200; 65; 65; 65; 65; 66] = Some [200; 200; 0; 65; 65; 2; 66].
Proof. reflexivity. Qed.

(** C08, the excluded case: the compressor never returns on any text that ends in
    two 0xFF bytes ([is.peek()] yields -1 at the end of the stream, which equals
    [(char)0xFF]). *)
Theorem rle_nonterminating_refuted : forall offset p, is64 offset ->
  rle_encode offset (p ++ [255; 255]) = None.
Proof. exact rle_hangs_pf. Qed.
Print Assumptions rle_nonterminating_refuted.

(** C09. *)
Theorem mtf_roundtrip : forall t, bytes_ok t ->
  exists e, mtf_encode t = Some e /\ bytes_ok e /\ mtf_decode e = Some t.
Proof. exact mtf_roundtrip_pf. Qed.
Print Assumptions mtf_roundtrip.
Example mtf_ex : bytes_ok [98; 97; 97; 255; 0] /\ mtf_encode [98; 97; 97; 255; 0] = Some [98; 98; 0; 255; 3].
Proof. split; [repeat constructor; reflexivity|reflexivity]. Qed.

(** C27. For every coder that is correct on the literals it is told about. *)
Theorem literal_encoder_roundtrip : forall (P : list N -> Prop) c, coder_ok_lits P c ->
  forall text, bytes_ok text -> P text ->
  exists f, litenc_compress c text = Some f /\
    forall fuel, (length text <= fuel)%nat -> litenc_decompress c fuel f = Some text.
Proof. exact litenc_pf. Qed.
Print Assumptions literal_encoder_roundtrip.

Theorem literal_encoder_simple_roundtrip : forall k text, bytes_ok text ->
  exists f, litenc_compress (simple_coder k) text = Some f /\
    forall fuel, (length text <= fuel)%nat -> litenc_decompress (simple_coder k) fuel f = Some text.
Proof. exact litenc_simple_pf. Qed.
Print Assumptions literal_encoder_simple_roundtrip.
Example litenc_ex : litenc_compress (simple_coder BitC) [1; 2; 255] = Some [1; 2; 255; 0].
Proof. reflexivity. Qed.

Theorem noop_roundtrip : forall sm sm' d d' l, noop_decompress sm' d' (noop_compress sm d l) = l.
Proof. exact noop_pf. Qed.
Print Assumptions noop_roundtrip.
