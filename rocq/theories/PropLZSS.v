(** Properties C16, C17, C18: LZSS factor coding, flattening, sliding window. *)
From Verif Require Import Base BitIO IntCodes IntCodesProofs Coders CodersProofs LooseCoders
  LZSS LZSSSpec LZSSProofs WindowProofs.
Local Open Scope nat_scope.

(** C16. Encoding any text with any list of ordered, non-overlapping factors that point
    to the left and repeat the text, then decoding, yields the text - with every simple
    coder (ASCII, Bit, Elias gamma/delta, Ternary).  [fuel] bounds the decoder's loop:
    any number above the text length does. *)
Theorem lzss_roundtrip : forall k text fs,
  bytes_ok text -> (nn (length text) < 2 ^ 32)%N ->
  factors_ok 0 (length text) fs -> spells text fs ->
  (forall f, In f fs -> f_src f < f_pos f) ->
  exists f, lzss_encode (simple_coder k) text fs = Some f /\
    forall fuel, length text < fuel -> lzss_decode (simple_coder k) fuel f = Some text.
Proof.
  intros k text fs Hb Hn Hok Hs Hl.
  apply (lzss_roundtrip_pf (fun _ => True) (simple_ex k)); auto.
  - apply simple_coder_loose.
  - apply call_ok_simple_ex.
  - intros f j Hf Hj. specialize (Hl f Hf). lia.
Qed.
Print Assumptions lzss_roundtrip.

(** C16. The same for any coder that announces literals first, for literals it accepts;
    [plain text] are exactly the characters not covered by a factor. *)
Theorem lzss_roundtrip_any_coder : forall P ex c text fs,
  coder_loose P ex c -> (forall x, call_ok x -> ex x) ->
  bytes_ok text -> (nn (length text) < 2 ^ 32)%N ->
  factors_ok 0 (length text) fs -> spells text fs ->
  (forall f, In f fs -> f_src f < f_pos f) -> P (plain text (length text) 0 fs) ->
  exists f, lzss_encode c text fs = Some f /\
    forall fuel, length text < fuel -> lzss_decode c fuel f = Some text.
Proof.
  intros P ex c text fs HC Hex Hb Hn Hok Hs Hl HP.
  apply (lzss_roundtrip_pf P ex); auto. intros f j Hf Hj. specialize (Hl f Hf). lia.
Qed.
Print Assumptions lzss_roundtrip_any_coder.

(** C16, lcpcomp side. With references in any direction the decoder loop sees the text
    length and exactly the literals and factors, in text order. *)
Theorem lzss_events : forall k text fs,
  bytes_ok text -> (nn (length text) < 2 ^ 32)%N -> factors_ok 0 (length text) fs ->
  exists f, lzss_encode (simple_coder k) text fs = Some f /\
    forall fuel, length text < fuel ->
      decode_events (simple_coder k) fuel f = Some (nn (length text), events text (length text) 0 fs).
Proof.
  intros k text fs Hb Hn Hok.
  destruct (decode_events_pf (fun _ => True) (simple_ex k) (simple_coder k) text fs) as (f & E1 & E2); auto.
  - apply simple_coder_loose.
  - apply call_ok_simple_ex.
  - exists f. split; auto. intros fuel Hf. apply E2. pose proof (factors_ok_len _ _ _ Hok). lia.
Qed.
Print Assumptions lzss_events.

(** C17. flatten ends, changes only sources, and keeps every factor correct for the text;
    if references descend in any rank (e.g. point to the left, or are merely acyclic)
    they still do afterwards. *)
Theorem flatten_preserves : forall rank n fs fuel,
  factors_ok 0 n fs -> descends rank fs -> (forall p, p < n -> rank p < fuel) ->
  exists fs', flatten fuel fs = Some fs' /\ same_shape fs fs' /\ factors_ok 0 n fs' /\
    descends rank fs' /\ (forall text, spells text fs -> spells text fs').
Proof. exact flatten_pf. Qed.
Print Assumptions flatten_preserves.

(** C17, consequence: flattening a left-pointing factorisation and then coding it is lossless. *)
Theorem flatten_roundtrip : forall k text fs,
  bytes_ok text -> (nn (length text) < 2 ^ 32)%N ->
  factors_ok 0 (length text) fs -> spells text fs ->
  (forall f, In f fs -> f_src f < f_pos f) ->
  exists fs' f, flatten (length text) fs = Some fs' /\
    lzss_encode (simple_coder k) text fs' = Some f /\
    forall fuel, length text < fuel -> lzss_decode (simple_coder k) fuel f = Some text.
Proof.
  intros k text fs Hb Hn Hok Hs Hl.
  destruct (flatten_pf (fun i => i) (length text) fs (length text) Hok) as (fs' & E & Sh & Ok' & D' & Sp').
  { intros f j Hf Hj. specialize (Hl f Hf). lia. }
  { auto. }
  destruct (lzss_roundtrip k text fs' Hb Hn Ok' (Sp' _ Hs)) as (f & E1 & E2).
  { intros f Hf. specialize (D' f 0 Hf). destruct (factors_ok_in _ _ _ _ Ok' Hf) as (_ & Hlen & _).
    specialize (D' ltac:(lia)). cbv beta in D'. rewrite !Nat.add_0_r in D'. exact D'. }
  eauto.
Qed.
Print Assumptions flatten_roundtrip.

(** C18. Sliding-window LZSS, any window >= 1 and any threshold.  The match length is
    encoded in Range(window) although it can reach 2*window-1: harmless for the coders
    that ignore the range; the Bit coder needs window to be a power of two. *)
Theorem window_roundtrip : forall k window thr text,
  bytes_ok text -> (nn (length text) < 2 ^ 64)%N -> 1 <= window -> (nn (2 * window) < 2 ^ 64)%N ->
  (k = BitC -> exists e, window = 2 ^ e) ->
  exists f, win_compress (simple_coder k) window thr text = Some f /\
    forall fuel, length text <= fuel -> win_decompress (simple_coder k) fuel window f = Some text.
Proof.
  intros k window thr text Hb Hn Hw Hw64 Hk.
  apply (win_roundtrip_pf (fun _ => True) (simple_ex k)); auto.
  - apply simple_coder_loose.
  - apply call_ok_simple_ex.
  - intros m Hm. destruct k; cbn [simple_ex]; auto. destruct (Hk eq_refl) as [e ->].
    split; [lia|]. rewrite !N.sub_0_r. rewrite Nat2N.inj_pow. change (nn 2) with 2%N.
    assert (E : bits_for (2 ^ nn e) = (nn e + 1)%N).
    { unfold bits_for, bits_hi. replace (2 ^ nn e =? 0)%N with false
        by (symmetry; apply N.eqb_neq; apply N.pow_nonzero; lia).
      rewrite N.size_log2 by (apply N.pow_nonzero; lia). rewrite N.log2_pow2 by lia. lia. }
    rewrite E. rewrite N.add_1_r, N.pow_succ_r'. 
    assert (nn (2 ^ e) = 2 ^ nn e)%N by (rewrite Nat2N.inj_pow; reflexivity). lia.
Qed.
Print Assumptions window_roundtrip.

(** The power-of-two condition is needed: with the Bit coder and window 3 the match
    length 5 in "aaaaaa" is cut to two bits. *)
Theorem window_bit_refuted : exists f,
  win_compress (simple_coder BitC) 3 2 (repeat 97%N 6) = Some f /\
  win_decompress (simple_coder BitC) 100 3 f <> Some (repeat 97%N 6).
Proof. eexists. split; [vm_compute; reflexivity|]. vm_compute. discriminate. Qed.
Print Assumptions window_bit_refuted.
(** A window of 0 loses every text. *)
Theorem window_zero_refuted : forall k thr text,
  exists f, win_compress (simple_coder k) 0 thr text = Some f /\
    forall fuel, win_decompress (simple_coder k) fuel 0 f = Some [].
Proof.
  intros k thr text. exists (bits_file []). split.
  - unfold win_compress. simpl. reflexivity.
  - intros fuel. unfold win_decompress. cbn [simple_coder c_open obind].
    destruct fuel; reflexivity.
Qed.
Print Assumptions window_zero_refuted.

(** Non-vacuity. *)
Example factors_ex : factors_ok 0 8 [mk_f 2 0 2; mk_f 5 2 3] /\
  spells [97;98;97;98;99;97;98;99]%N [mk_f 2 0 2; mk_f 5 2 3] /\
  descends (fun i => i) [mk_f 2 0 2; mk_f 5 2 3].
Proof.
  split; [simpl; lia|]. split.
  - intros f j [<-|[<-|[]]] Hj; simpl in Hj; do 3 (destruct j as [|j]; [reflexivity || (simpl in Hj; lia)|]); simpl in Hj; lia.
  - intros f j [<-|[<-|[]]] Hj; simpl in *; lia.
Qed.
Example flatten_ex : flatten 20 [mk_f 2 0 2; mk_f 4 2 2; mk_f 7 4 2]
  = Some [mk_f 2 0 2; mk_f 4 0 2; mk_f 7 0 2].
Proof. reflexivity. Qed.
Example lzss_run_ex : forall k, In k [Ascii; BitC; Gamma; Delta; Ternary] ->
  (do f <- lzss_encode (simple_coder k) [97;98;97;98;99;97;98;99]%N [mk_f 2 0 2; mk_f 5 2 3];
   lzss_decode (simple_coder k) 20 f) = Some [97;98;97;98;99;97;98;99]%N.
Proof. intros k H. repeat (destruct H as [<-|H]; [vm_compute; reflexivity|]). destruct H. Qed.
Example window_run_ex :
  (do f <- win_compress (simple_coder BitC) 4 3 [97;98;97;98;97;98;97;98;97;98;99;97;98;99]%N;
   win_decompress (simple_coder BitC) 20 4 f) = Some [97;98;97;98;97;98;97;98;97;98;99;97;98;99]%N.
Proof. vm_compute. reflexivity. Qed.
