(** C29: Re-Pair. *)
From Verif Require Import Base BitIO BitIOProofs IntCodes IntCodesProofs Coders CodersProofs LooseCoders Huffman HuffmanSpec HuffmanProofs PropHuffman RePair RePairSpec RePairProofs.
Local Open Scope N_scope.

Definition limit (max_rules : N) : N := if max_rules =? 0 then 2 ^ 64 - 1 else max_rules.

(** C29. The grammar: the compressor writes rules [g] and a remaining sequence [l] obtained from
    the input by repeatedly replacing a most frequent pair, until no pair occurs twice or
    max_rules rules exist; the file consists of the rules and of [l]. *)
Theorem repair_grammar : forall max_rules c text, bytes_ok text -> text <> [] -> N.of_nat (length text) + 256 <= 2 ^ 32 ->
  exists g l, derives text g l /\ N.of_nat (length g) <= limit max_rules /\
    (irreducible l \/ N.of_nat (length g) = limit max_rules) /\
    rp_compress max_rules c text = c_enc c (rp_literals l (map dig g)) (rp_calls l (map dig g)).
Proof.
  intros mr c text Hb Hne Hn. unfold rp_compress. fold (limit mr).
  assert (Hlim : 1 <= limit mr) by (unfold limit; destruct (N.eqb_spec mr 0); lia).
  destruct (rp_loop_ok text (limit mr) Hb Hne Hn (length text) text (seq 1 (length text)) [] text) as (t & nx & g & l & E & D & C & F & B); auto.
  { constructor. }
  { apply (chain_init (length text) text 0); lia. }
  { apply seq_length. }
  exists g, l. split; auto.
  assert (HB : N.of_nat (length g) <= limit mr) by (cbn [length] in B; lia). split; auto.
  split; [destruct F; [auto|right; lia]|].
  destruct (length text) as [|n] eqn:En; [destruct text; [congruence|discriminate]|].
  cbn [map] in E. rewrite E. cbn [obind]. rewrite (walk_ok _ _ _ _ _ C) by lia. reflexivity.
Qed.
Print Assumptions repair_grammar.

Lemma repair_roundtrip_gen max_rules c P text : coder_ok_ann P c -> bytes_ok text -> text <> [] ->
  N.of_nat (length text) + 256 <= 2 ^ 32 ->
  (forall g l, derives text g l -> N.of_nat (length g) <= limit max_rules -> P (rp_literals l (map dig g))) ->
  exists f, rp_compress max_rules c text = Some f /\
    forall fuel, (length text <= fuel)%nat -> rp_decompress c fuel f = Some text.
Proof.
  intros Hc Hb Hne Hn HP. destruct (repair_grammar max_rules c text Hb Hne Hn) as (g & l & D & Hlim & _ & E).
  destruct (derives_app _ _ _ D) as [Hlen _]. destruct (derives_below _ _ _ Hb D) as [Hbl Hac].
  fold (acyclic g) in Hac.
  assert (Hg : N.of_nat (length g) + 256 <= 2 ^ 32) by lia.
  assert (Hok : Forall call_ok (rp_calls l (map dig g))).
  { unfold rp_calls. rewrite map_length. constructor; [cbn; lia|]. apply Forall_app. split.
    - apply (rule_calls_ok g Hac Hg 0); lia.
    - apply text_calls_ok; auto. lia. }
  destruct (Hc (rp_literals l (map dig g)) (rp_calls l (map dig g)) Hok (literals_bytes _ _) (HP g l D Hlim) (lits_announced _ _)) as (f & s & R & Ef & Eo & HD & HR).
  exists f. rewrite E. split; auto. intros fuel Hf. unfold rp_decompress. rewrite Eo. cbn [obind].
  unfold rp_calls in HR. rewrite map_length in HR. pose proof HD as [_ D2]. destruct (D2 _ _ _ _ HR) as (_ & s1 & E1 & R1).
  rewrite E1. cbn [obind call_val]. rewrite Nat2N.id.
  destruct (decode_rules_ok c R HD g Hac Hg (length g) 0 s1 _ ltac:(lia) ltac:(lia) R1) as (s2 & E2 & R2).
  cbn [firstn map] in E2. rewrite E2. cbn [obind].
  destruct (derives_expands _ _ _ Hb D) as (us & HF & Hus).
  rewrite (decode_text_ok c R HD g Hac Hg l us HF Hbl fuel s2) by (auto; lia). congruence.
Qed.

(** C29. Re-Pair with any coder that decodes what it encoded (ASCII, Bit, Elias gamma/delta, ternary)
    is lossless for every non-empty text of fewer than 2^32-256 bytes and every max_rules. *)
Theorem repair_roundtrip : forall max_rules c text, coder_ok c -> bytes_ok text -> text <> [] ->
  N.of_nat (length text) + 256 <= 2 ^ 32 ->
  exists f, rp_compress max_rules c text = Some f /\
    forall fuel, (length text <= fuel)%nat -> rp_decompress c fuel f = Some text.
Proof.
  intros mr c text Hc Hb Hne Hn. apply (repair_roundtrip_gen mr c (fun _ => True)); auto.
  intros lits cs H1 _ _ _. apply Hc; auto.
Qed.
Print Assumptions repair_roundtrip.
Theorem repair_simple_coders : forall k max_rules text, bytes_ok text -> text <> [] ->
  N.of_nat (length text) + 256 <= 2 ^ 32 ->
  exists f, rp_compress max_rules (simple_coder k) text = Some f /\
    forall fuel, (length text <= fuel)%nat -> rp_decompress (simple_coder k) fuel f = Some text.
Proof. intros k mr text. apply repair_roundtrip. apply simple_coder_ok. Qed.
Print Assumptions repair_simple_coders.

Lemma huff_coder_ann L ih : stdlib_ok L ih -> coder_ok_ann huff_lits (huff_coder L).
Proof.
  intros HL lits cs Hc Hb HP Hi.
  assert (Hc' : Forall call_loose cs) by (revert Hc; apply Forall_impl; apply call_ok_loose).
  destruct (init_agree L ih HL lits Hb HP) as (st & h & d & E1 & E2 & Ha).
  set (al := fun v => In v lits) in *.
  assert (Hl : Forall (lit_in al) cs).
  { apply Forall_forall. intros [v r] Hin Hr. cbn in *. subst r. apply Hi, lits_of_in; auto. }
  destruct (enc_calls_ex st d al cs Ha Hc' Hl) as (bs & E3).
  cbn [huff_coder c_enc c_open c_st]. unfold huff_bits. rewrite E1. cbn [obind]. rewrite E3. cbn [obind].
  pose proof (huff_open_sim _ _ _ bis_sim _ _ (bisR_file (h ++ bs))) as G. rewrite E2 in G.
  destruct (huff_open bis_read_bit (bis_open (bits_file (h ++ bs)))) as [[d' s]|] eqn:E4; [|contradiction].
  destruct G as [G1 G2]; cbn in G1, G2. subst d'.
  exists (bits_file (h ++ bs)), (d, s), (fun s cs => huff_rel st d al s cs /\ Forall call_ok cs).
  destruct (huff_decodes L st d al Ha) as [D1 D2].
  split; auto. split; auto. split; [split|].
  - intros s0 [H0 _]. apply D1; auto.
  - intros s0 v r rest [H0 Hf]. inversion Hf as [|? ? F1 F2]; subst.
    destruct (D2 _ _ _ _ H0) as (He & dv & s' & Ed & Hdv & HR').
    split; auto. exists s'. rewrite call_ok_val by auto. cbn [fst]. rewrite <- Hdv by (apply call_ok_simple_ex; auto). auto.
  - split; auto. split; auto. split; auto. split; auto. exists bs. auto.
Qed.

(** C29. With the Huffman coder: lossless if byte 255 does not occur and at most 255 rules are
    allowed.  (Non-terminals left in the text are announced to the coder truncated to a byte, so
    rule 255 counts as byte 255.) *)
Theorem repair_huffman : forall L is_heap max_rules text, stdlib_ok L is_heap -> bytes_ok text -> text <> [] ->
  Forall (fun c => c < 255) text -> 1 <= max_rules <= 255 -> N.of_nat (length text) + 512 <= 2 ^ 32 ->
  exists f, rp_compress max_rules (huff_coder L) text = Some f /\
    forall fuel, (length text <= fuel)%nat -> rp_decompress (huff_coder L) fuel f = Some text.
Proof.
  intros L ih mr text HL Hb Hne H255 Hmr Hn.
  apply (repair_roundtrip_gen mr _ huff_lits); auto; [apply (huff_coder_ann L ih HL)|lia|].
  intros g l D Hlim. unfold limit in Hlim. destruct (N.eqb_spec mr 0); [lia|].
  destruct (derives_app _ _ _ D) as [Hlen _].
  assert (G : Forall (fun x => x <> 255 /\ x < 256 + N.of_nat (length g)) l /\
              Forall (fun d => fst d <> 255 /\ snd d <> 255 /\ small (fst d) /\ small (snd d)) g).
  { clear Hlim Hlen Hmr n. induction D as [|g l d D IH Ho Hm].
    - split; [|constructor]. revert H255. apply Forall_impl. cbn. lia.
    - destruct (derives_app _ _ _ D) as [Hlen _]. destruct IH as [I1 I2]. rewrite app_length. cbn [length]. split.
      + eapply repl_forall; [|apply le_n|]; [split; lia|]. revert I1. apply Forall_impl. cbn. lia.
      + apply Forall_app. split; auto. constructor; auto.
        assert (K : forall m, (1 <= RePairSpec.occ d m)%nat -> Forall (fun x => x <> 255 /\ x < 256 + N.of_nat (length g)) m ->
          fst d <> 255 /\ snd d <> 255 /\ small (fst d) /\ small (snd d)).
        { clear - Hlen Hn. induction m as [|x [|y r] IH]; cbn [RePairSpec.occ]; try lia. intros H Hs. inversion Hs as [|? ? Sa Hs']; subst.
          destruct (pair_eqb (x, y) d) eqn:E; [|apply IH; auto; lia].
          apply pair_eqb_eq in E. subst d. inversion Hs' as [|? ? Sb]; subst. cbn [fst snd]. unfold small. lia. }
        apply (K l); auto. lia. }
  destruct G as [G1 G2]. split.
  - left. unfold rp_literals. apply Forall_app. split.
    + apply Forall_map. revert G1. apply Forall_impl. intros x [Hx1 Hx2]. unfold w8.
      destruct (N.lt_ge_cases x 256) as [Hx|Hx].
      * rewrite N.mod_small by auto. lia.
      * replace x with (x - 256 + 1 * 256) by lia. rewrite N.mod_add by discriminate. rewrite N.mod_small by lia. lia.
    + apply Forall_flat_map. rewrite Forall_map. revert G2. apply Forall_impl. intros d (A1 & A2 & A3 & A4). unfold dig.
      rewrite digram_left, digram_right by auto. apply Forall_app.
      split; [destruct (N.ltb_spec (fst d) 256)|destruct (N.ltb_spec (snd d) 256)]; repeat constructor; unfold w8; rewrite N.mod_small by auto; lia.
  - unfold rp_literals. rewrite app_length, map_length.
    assert (length (flat_map (fun d => (if (d_left d <? 256)%N then [w8 (d_left d)] else []) ++ (if (d_right d <? 256)%N then [w8 (d_right d)] else [])) (map dig g)) <= 2 * length g)%nat.
    { clear. induction g as [|d g IH]; cbn [map flat_map length]; auto. rewrite !app_length.
      destruct (d_left (dig d) <? 256), (d_right (dig d) <? 256); cbn [length]; lia. }
    lia.
Qed.
Print Assumptions repair_huffman.

(** C29, what does not hold: the empty input reads outside its arrays. *)
Theorem repair_empty_refuted : forall max_rules c, rp_compress max_rules c [] = None.
Proof. reflexivity. Qed.
Print Assumptions repair_empty_refuted.

Definition rp_example : list N := [97;98;114;97;99;97;100;97;98;114;97;97;97;97].
Example repair_ex : (do f <- rp_compress 0 (simple_coder BitC) rp_example; rp_decompress (simple_coder BitC) 20 f) = Some rp_example.
Proof. vm_compute. reflexivity. Qed.
Example repair_ex_hyps : bytes_ok rp_example /\ rp_example <> [] /\ N.of_nat (length rp_example) + 512 <= 2 ^ 32 /\ Forall (fun c => c < 255) rp_example.
Proof. split; [|split; [discriminate|split; [vm_compute; discriminate|]]]; repeat constructor. Qed.
Example repair_ex_rules : exists f, rp_compress 0 (simple_coder Ascii) rp_example = Some f /\ length f = 36%nat.
Proof. eexists. split; [vm_compute; reflexivity|vm_compute; reflexivity]. Qed.
