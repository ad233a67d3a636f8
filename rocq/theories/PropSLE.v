(** C25: the static low entropy coder.  C52: util/Counter.hpp. *)
From Coq Require Import Permutation Sorted.
From Verif Require Import Base BitIO BitIOProofs IntCodes IntCodesProofs Coders CodersProofs LooseCoders
  ByteComp ByteCompProofs PropByteComp LZSS LZSSSpec LZSSProofs PropLZSS
  Huffman HuffmanProofs RePair RePairSpec RePairProofs PropRePair
  SLE SLESpec CounterProofs SLEProofs SLERelProofs.
Local Open Scope N_scope.

(** C25. For every k-mer length 1..7, every announcement of literals with any positions, and every
    sequence of calls (literals, bits, Range, MinDistributedRange): the file is written, and it
    decodes to the same values, with eof() exactly at the end, if and only if every literal
    that is encoded was among the announced ones. *)
Theorem sle_roundtrip_iff : forall k ub lits cs, (1 <= k <= 7)%nat ->
  Forall (fun l => fst l < 256) lits -> Forall scall_ok cs ->
  exists f, sle_file k ub lits cs = Some f /\
    (sle_decode k (map snd cs) f = Some (map fst cs) <-> incl (slits cs) (map fst lits)).
Proof.
  intros k ub lits cs Hk Hl Hc.
  assert (Hc' : Forall scall_loose cs) by (revert Hc; apply Forall_impl; intros c; apply call_ok_loose).
  assert (Hx : Forall scall_ex cs) by (revert Hc; apply Forall_impl; intros c; apply call_ok_simple_ex).
  destruct (sle_file_ok k ub lits cs Hk Hl Hc') as (f & s & al & E1 & E2 & Hal & HF).
  assert (HA : forall c, In c (map fst lits) -> c < 256).
  { intros c H. apply in_map_iff in H. destruct H as ([c' p] & <- & H). rewrite Forall_forall in Hl. apply (Hl _ H). }
  exists f. split; auto. unfold sle_decode. rewrite E2. cbn [obind]. split.
  - intros E. destruct (read_announced _ k al HA Hk Hal _ [] s _ (Forall_nil _) E) as [_ G].
    intros v Hv. apply G. unfold slits, lits_of in Hv. apply in_flat_map in Hv.
    destruct Hv as ([w r] & H1 & H2). apply in_map_iff in H1. destruct H1 as ([v' r'] & H1 & H3).
    assert (Hr : r' = SR RLit /\ v' = v).
    { destruct r' as [[]|]; cbn [plain] in H1; injection H1 as <- <-; cbn in H2; try tauto; intuition. }
    destruct Hr as [-> ->]. clear - H3. induction cs as [|[a b] cs IH]; [destruct H3|].
    cbn [map combine fst snd In]. destruct H3 as [H|H]; [left; injection H as -> ->; auto|right; auto].
  - intros Hi. apply (frel_read _ k al HA Hk Hal); auto.
Qed.
Print Assumptions sle_roundtrip_iff.

(** C25. The coder as used by the compressors: correct for every announcement that covers the
    literals (whatever positions are announced and whichever ranges are "min distributed"). *)
Lemma plain_sle mind c : plain (fst c, sle_rng mind (snd c)) = c.
Proof. destruct c as [v [mn mx| |]]; cbn; auto. destruct (mind mn mx); auto. Qed.
Lemma map_plain_sle mind cs : map plain (map (fun c => (fst c, sle_rng mind (snd c))) cs) = cs.
Proof. rewrite map_map. erewrite map_ext; [apply map_id|]. apply plain_sle. Qed.
Lemma combine_fst {A B} (l : list A) (f : nat -> B) : forall i, map fst (combine l (map f (seq i (length l)))) = l.
Proof. induction l as [|a l IH]; intros i; cbn [length seq map combine fst]; [auto|]. f_equal. apply IH. Qed.

Lemma sle_coder_gen k ub pos mind (lits : list N) cs : (1 <= k <= 7)%nat -> Forall (fun x => x < 256) lits ->
  Forall call_loose cs -> incl (lits_of cs) lits ->
  exists f s R, c_enc (sle_coder k ub pos mind) lits cs = Some f /\ c_open (sle_coder k ub pos mind) f = Some s /\
    decodes_ex (sle_coder k ub pos mind) (simple_ex BitC) R /\ R s cs.
Proof.
  intros Hk Hl Hc Hi.
  set (cs' := map (fun c => (fst c, sle_rng mind (snd c))) cs).
  set (lits' := combine lits (map pos (seq 0 (length lits)))).
  assert (Hf : map fst lits' = lits) by (apply combine_fst).
  assert (Hl' : Forall (fun l => fst l < 256) lits').
  { apply Forall_forall. intros l H. apply (in_map fst) in H. rewrite Hf in H. rewrite Forall_forall in Hl. auto. }
  assert (Hc' : Forall scall_loose cs').
  { unfold cs'. apply Forall_forall. intros c H. apply in_map_iff in H. destruct H as (c0 & <- & H).
    unfold scall_loose. rewrite plain_sle. rewrite Forall_forall in Hc. auto. }
  destruct (sle_file_ok k ub lits' cs' Hk Hl' Hc') as (f & s & al & E1 & E2 & Hal & HF).
  rewrite Hf in *. assert (HA : forall c, In c lits -> c < 256) by (rewrite Forall_forall in Hl; auto).
  exists f, (dst al [], s), (fun x cs => frel k al x (map (fun c => (fst c, sle_rng mind (snd c))) cs)).
  split; [exact E1|]. split; [exact E2|]. split.
  - split; cbn [sle_coder c_eof c_dec c_st].
    + intros x Hx. apply frel_end in Hx. exact Hx.
    + intros x v r rest Hx. cbn [map fst snd] in Hx.
      destruct (frel_step _ k al x v _ _ HA Hk Hal Hx) as (G1 & dv & d & s' & G2 & G3 & G4).
      split; auto. rewrite G2. cbn [obind]. exists dv, (d, s'). split; auto. split; auto.
      intros Hex. apply G3. unfold scall_ex.
      change (v, sle_rng mind r) with (fst (v, r), sle_rng mind (snd (v, r))). rewrite plain_sle. exact Hex.
  - apply HF. unfold slits, cs'. rewrite map_plain_sle. exact Hi.
Qed.
Theorem sle_coder_loose : forall k ub pos mind, (1 <= k <= 7)%nat ->
  coder_loose (fun _ => True) (simple_ex BitC) (sle_coder k ub pos mind).
Proof.
  intros k ub pos mind Hk cs Hc _. apply sle_coder_gen; auto.
  - apply lits_of_bytes; auto.
  - apply incl_refl.
Qed.
Print Assumptions sle_coder_loose.
Theorem sle_coder_announced : forall k ub pos mind, (1 <= k <= 7)%nat ->
  coder_ok_ann (fun _ => True) (sle_coder k ub pos mind).
Proof.
  intros k ub pos mind Hk lits cs Hc Hl _ Hi.
  assert (Hc' : Forall call_loose cs) by (revert Hc; apply Forall_impl; apply call_ok_loose).
  destruct (sle_coder_gen k ub pos mind lits cs Hk Hl Hc' Hi) as (f & s & R & E1 & E2 & [D1 D2] & HR).
  exists f, s, (fun s cs => R s cs /\ Forall call_ok cs). split; auto. split; auto. split; [split|].
  - intros s0 [H0 _]. apply D1; auto.
  - intros s0 v r rest [H0 Hf]. inversion Hf as [|? ? F1 F2]; subst.
    destruct (D2 _ _ _ _ H0) as (He & dv & s' & Ed & Hdv & HR').
    split; auto. exists s'. rewrite call_ok_val by auto. cbn [fst]. rewrite <- Hdv by (apply call_ok_simple_ex; auto). auto.
  - auto.
Qed.
Print Assumptions sle_coder_announced.

(** C25. encode(sle), lzss(..., sle) and repair(sle) are lossless. *)
Theorem sle_encode_roundtrip : forall k ub pos mind text, (1 <= k <= 7)%nat -> bytes_ok text ->
  exists f, litenc_compress (sle_coder k ub pos mind) text = Some f /\
    forall fuel, (length text <= fuel)%nat -> litenc_decompress (sle_coder k ub pos mind) fuel f = Some text.
Proof.
  intros k ub pos mind text Hk Hb. apply (literal_encoder_roundtrip (fun _ => True)); auto.
  eapply loose_ok_lits; [exact (sle_coder_loose k ub pos mind Hk)|apply call_ok_simple_ex].
Qed.
Print Assumptions sle_encode_roundtrip.
Theorem sle_lzss_roundtrip : forall k ub pos mind text fs, (1 <= k <= 7)%nat ->
  bytes_ok text -> (nn (length text) < 2 ^ 32) ->
  factors_ok 0 (length text) fs -> spells text fs -> (forall f, In f fs -> (f_src f < f_pos f)%nat) ->
  exists f, lzss_encode (sle_coder k ub pos mind) text fs = Some f /\
    forall fuel, (length text < fuel)%nat -> lzss_decode (sle_coder k ub pos mind) fuel f = Some text.
Proof.
  intros k ub pos mind text fs Hk Hb Hn Hok Hs Hl.
  apply (lzss_roundtrip_any_coder (fun _ => True) (simple_ex BitC)); auto.
  - apply sle_coder_loose; auto.
  - apply call_ok_simple_ex.
Qed.
Print Assumptions sle_lzss_roundtrip.
Theorem sle_repair_roundtrip : forall k ub pos mind max_rules text, (1 <= k <= 7)%nat ->
  bytes_ok text -> text <> [] -> N.of_nat (length text) + 256 <= 2 ^ 32 ->
  exists f, rp_compress max_rules (sle_coder k ub pos mind) text = Some f /\
    forall fuel, (length text <= fuel)%nat -> rp_decompress (sle_coder k ub pos mind) fuel f = Some text.
Proof.
  intros k ub pos mind mr text Hk Hb Hne Hn. apply (repair_roundtrip_gen mr _ (fun _ => True)); auto.
  apply sle_coder_announced; auto.
Qed.
Print Assumptions sle_repair_roundtrip.

(** C25, outside 1..7.  k = 0: encoding any literal accesses memory behind an empty buffer. *)
Theorem sle_kmer_0_refuted : forall ub lits cs v, In (v, SR RLit) cs -> sle_file 0 ub lits cs = None.
Proof.
  intros ub lits cs v H. unfold sle_file, sle_bits.
  destruct (sle_alphabet 0 ub lits) as [al|]; [|reflexivity]. cbn [obind].
  destruct (sle_header al); [|reflexivity]. cbn [obind].
  assert (G : forall rk sb, sle_enc_calls 0 rk sb [] cs = None); [|rewrite G; reflexivity].
  intros rk sb. induction cs as [|[w r] cs IH]; [destruct H|]. cbn [sle_enc_calls].
  destruct r as [[mn mx| |]|mn mx]; cbn [sle_enc_call].
  - destruct H as [H|H]; [discriminate|]. destruct (enc_call _ _); [|reflexivity]. cbn [obind]. rewrite IH; auto.
  - reflexivity.
  - destruct H as [H|H]; [discriminate|]. destruct (enc_call _ _); [|reflexivity]. cbn [obind]. rewrite IH; auto.
  - destruct H as [H|H]; [discriminate|]. cbn [obind]. rewrite IH; auto.
Qed.
Print Assumptions sle_kmer_0_refuted.

(** k = 8: the first character of a k-mer is overwritten by the k-mer mark. *)
Theorem sle_kmer_8_refuted : forall ub, exists f, let text := [97; 98; 99; 100; 101; 102; 103; 104] in
  litenc_compress (sle_coder 8 ub N.of_nat (fun _ _ => false)) text = Some f /\
  litenc_decompress (sle_coder 8 ub N.of_nat (fun _ _ => false)) 8 f = Some [255; 98; 99; 100; 101; 102; 103; 104].
Proof. intros ub. eexists. split; vm_compute; reflexivity. Qed.
Print Assumptions sle_kmer_8_refuted.

(** k > 8: packing a k-mer shifts by 64 bits or more, so that no text with k literals in a row can
    be announced. *)
Lemma compile_loop_long rk : forall i acc, (8 < i + length rk)%nat -> (i <= 8)%nat -> compile_loop i rk acc = None.
Proof.
  induction rk as [|c rk IH]; intros i acc H1 H2; cbn [compile_loop length] in *; [lia|].
  destruct (Nat.ltb_spec (8 * i) 64); [|reflexivity]. apply IH; lia.
Qed.
Lemma count_long k : (8 < k)%nat -> forall text i last buf al km, (length buf < k)%nat -> (k <= length buf + length text)%nat ->
  (buf = [] \/ N.of_nat i = last + 1) ->
  sle_count k (combine text (map N.of_nat (seq i (length text)))) last buf al km = None.
Proof.
  intros Hk. induction text as [|c text IH]; intros i last buf al km H1 H2 H3; cbn [length seq map combine sle_count] in *; [lia|].
  destruct (Nat.ltb_spec 1 k); [|lia].
  assert (Eb : (if negb (N.of_nat i =? last + 1) then [] else buf) = buf).
  { destruct (N.eqb_spec (N.of_nat i) (last + 1)) as [|Hn]; cbn [negb]; auto. destruct H3 as [->|]; [auto|congruence]. }
  cbn zeta. rewrite Eb. unfold kmer_roll. destruct (Nat.eqb_spec (length buf) k); [lia|]. cbn [obind].
  rewrite app_length. cbn [length]. destruct (Nat.eqb_spec (length buf + 1) k).
  - unfold compile_kmer. rewrite compile_loop_long; [reflexivity| |lia]. rewrite rev_length, app_length. cbn [length]. lia.
  - cbn [obind]. apply IH; rewrite ?app_length; cbn [length]; try lia.
Qed.
Theorem sle_kmer_long_refuted : forall k ub mind text, (8 < k <= length text)%nat ->
  litenc_compress (sle_coder k ub N.of_nat mind) text = None.
Proof.
  intros k ub mind text H. unfold litenc_compress. cbn [sle_coder c_enc]. unfold sle_bits, sle_alphabet.
  rewrite (count_long k) with (buf := @nil N); auto; cbn; lia.
Qed.
Print Assumptions sle_kmer_long_refuted.

(** Non-vacuity: k-mers are used ("abc" occurs often), literals, bits and ranges mixed. *)
Definition sle_lits : list (N * N) :=
  combine [97; 98; 99; 97; 98; 99; 97; 98; 99; 120; 121] (map N.of_nat (seq 0 11)).
Definition sle_cs : list scall :=
  map (fun c => (c, SR RLit)) [97; 98; 99; 97; 98] ++ [(1, SR RBit); (40, SMin 3 200)] ++
  map (fun c => (c, SR RLit)) [120; 97; 98; 99; 121] ++ [(7, SR (RInt 5 9))] ++ map (fun c => (c, SR RLit)) [99; 97].
Example sle_ex : (exists f, sle_file 3 0 sle_lits sle_cs = Some f /\ sle_decode 3 (map snd sle_cs) f = Some (map fst sle_cs)) /\
  Forall scall_ok sle_cs /\ Forall (fun l => fst l < 256) sle_lits /\
  (exists al, sle_alphabet 3 0 sle_lits = Some al /\ existsb is_kmer (map fst al) = true).
Proof.
  split; [|split; [|split]].
  - eexists. split; vm_compute; reflexivity.
  - unfold sle_cs. cbn [map app]. unfold scall_ok. repeat constructor; cbn; lia.
  - unfold sle_lits. cbn. repeat constructor.
  - eexists. split; vm_compute; reflexivity.
Qed.
(** a coder that was told of no literals (NoLiterals, as LZ78 does) cannot transmit one *)
Example sle_unannounced_ex : exists f, sle_file 3 0 [] [(97, SR RLit)] = Some f /\ sle_decode 3 [SR RLit] f = None.
Proof. eexists. split; vm_compute; reflexivity. Qed.

(** C52. Counter: after increase(x) for each x of a sequence, getCount is the number of
    occurrences; getSorted lists every value seen once with its count, more frequent ones
    first and equally frequent ones by value; createRanking numbers them in that order. *)
Theorem counter_counts : forall l, N.of_nat (length l) < 2 ^ 64 ->
  let m := count_all l in
  (forall x, getCount m x = N.of_nat (count_occ N.eq_dec l x)) /\
  getNumItems m = N.of_nat (length (nodup N.eq_dec l)) /\
  NoDup (map fst (getSorted m)) /\
  (forall x c, In (x, c) (getSorted m) <-> In x l /\ c = N.of_nat (count_occ N.eq_dec l x)) /\
  StronglySorted cnt_le (getSorted m) /\
  (forall x r, rank_of (createRanking m) x = Some r <-> nth_error (map fst (getSorted m)) (N.to_nat r) = Some x).
Proof.
  intros l Hl m. destruct (count_all_ok l Hl) as (H1 & H2 & H3). fold m in H1, H2, H3.
  split; [exact H3|]. split; [|split; [apply sorted_keys_nodup; auto|split; [|split; [apply getSorted_sorted|]]]].
  - unfold getNumItems. f_equal. rewrite <- (map_length fst). fold (keys m).
    apply Permutation_length, NoDup_Permutation; auto; [apply NoDup_nodup|].
    intros x. rewrite nodup_In. apply H2.
  - intros x c. split.
    + intros H. apply (Permutation_in _ (getSorted_perm m)) in H. split.
      * apply H2. apply (in_map fst) in H. exact H.
      * rewrite <- H3. symmetry. apply getCount_in; auto.
    + intros [Hx ->]. apply (Permutation_in _ (Permutation_sym (getSorted_perm m))). rewrite <- H3.
      apply in_getCount; auto. apply H2; auto.
  - intros x r. apply createRanking_ok; auto.
Qed.
Print Assumptions counter_counts.
Example counter_ex : getSorted (count_all [5; 9; 5; 7; 9; 2; 5]) = [(5, 3); (9, 2); (2, 1); (7, 1)].
Proof. reflexivity. Qed.
