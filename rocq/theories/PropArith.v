(** C26: the arithmetic coder. *)
From Verif Require Import Base BitIO BitIOProofs IntCodes IntCodesProofs Coders CodersProofs LooseCoders
  ByteComp ByteCompProofs PropByteComp Huffman HuffmanProofs LZSS LZSSSpec
  Arith ArithSpec ArithProofs ArithRelProofs ArithTabProofs.
Local Open Scope N_scope.

(** the decoder's state (with its bit stream) and the calls still to come *)
Definition arel (g : nat -> N) (T n : N) (x : adec * bis) (cs : list call) : Prop :=
  exists bits, bisR (snd x) bits /\ lrel g T n (fst x) bits cs /\ Forall call_ok cs.

Lemma lits_of_app a b : lits_of (a ++ b) = lits_of a ++ lits_of b.
Proof. unfold lits_of. apply flat_map_app. Qed.
Lemma lits_of_other cs : (forall c, In c cs -> snd c <> RLit) -> lits_of cs = [].
Proof.
  induction cs as [|[v r] cs IH]; intros H; [reflexivity|]. unfold lits_of. cbn [flat_map]. fold (lits_of cs).
  rewrite IH by (intros c Hc; apply H; right; auto). specialize (H (v, r) (or_introl eq_refl)). cbn in H.
  destruct r; [reflexivity|congruence|reflexivity].
Qed.
Lemma lits_of_lits ls : lits_of (map (fun v => (v, RLit)) ls) = ls.
Proof. induction ls as [|v ls IH]; [reflexivity|]. unfold lits_of in *. cbn [map flat_map app]. f_equal. exact IH. Qed.

Lemma map_const {A B} (b : B) (l : list A) : map (fun _ => b) l = repeat b (length l).
Proof. induction l as [|x l IH]; cbn [map length repeat]; [reflexivity|]. f_equal. exact IH. Qed.

(** C26. For every announcement of literals that is an [arith_text] and every sequence of calls in which the literal
    calls are consecutive, as many as announced, each of them an announced literal (in any order and
    multiplicity), with any other calls before and behind them: the file is written and decodes to the same
    values, eof() holding exactly at the end. *)
Theorem arith_roundtrip : forall a cs, bytes_ok a -> arith_text a -> Forall call_ok cs -> contiguous cs ->
  length (lits_of cs) = length a -> incl (lits_of cs) a ->
  exists f s R, c_enc arith_coder a cs = Some f /\ c_open arith_coder f = Some s /\ decodes arith_coder R /\ R s cs.
Proof.
  intros a cs Hb Ha Hc (pre & ls & post & -> & Ho) Hlen Hincl.
  destruct (build_ok a Hb Ha) as (g & T & (g0 & gm & g255 & g256 & HT & Hn & Hcb) & Eb & Hp).
  rewrite !lits_of_app, lits_of_lits in *.
  rewrite (lits_of_other pre) in * by (intros c H; apply Ho, in_or_app; auto).
  rewrite (lits_of_other post) in * by (intros c H; apply Ho, in_or_app; auto).
  cbn [app] in *. rewrite app_nil_r in *.
  set (n := N.of_nat (length a)) in *.
  assert (Hne : ls <> []).
  { intros ->. destruct Ha as (_ & _ & c & Hc1 & _). destruct a; [destruct Hc1|discriminate]. }
  assert (Hpl : Forall (pres g) ls) by (apply Forall_forall; intros v Hv; apply Hp, Hincl, Hv).
  assert (Hpp : Forall call_loose (pre ++ post)).
  { apply Forall_app in Hc. destruct Hc as [C1 C2]. apply Forall_app in C2. destruct C2 as [C2 C3].
    eapply Forall_impl; [apply call_ok_loose|]. apply Forall_app; auto. }
  destruct (rel_init g T n g0 gm g255 g256 HT Hn Hcb pre ls post) as (bs & Ee & Eo & HR); auto.
  { apply Forall_forall. intros c H. apply Ho, in_or_app; auto. }
  { apply Forall_forall. intros c H. apply Ho, in_or_app; auto. }
  { unfold n. rewrite Hlen. reflexivity. }
  pose proof (ac_open_sim _ _ _ bis_sim _ _ (bisR_file (writeCodebook (enc0 g T n) ++ bs))) as So.
  rewrite Eo in So. destruct (ac_open bis_read_bit _) as [[d s]|] eqn:Eo'; [|contradiction].
  destruct So as [So1 So2]. cbn [fst snd] in So1, So2.
  exists (bits_file (writeCodebook (enc0 g T n) ++ bs)), (d, s), (arel g T n).
  cbn [arith_coder c_enc c_open c_st c_dec c_eof]. unfold ac_bits. rewrite Eb. cbn [obind].
  assert (Ee' : ac_enc_calls (enc0 g T n) (mk_abnd 0 u64max 0) (pre ++ map (fun v => (v, RLit)) ls ++ post) = Some bs) by exact Ee.
  rewrite Ee'. cbn [obind].
  split; [reflexivity|]. split; [exact Eo'|]. split; [split|].
  - intros [d1 s1] (bits & H1 & H2 & _). cbn [arith_coder c_eof fst snd] in *. apply lrel_end in H2. subst. apply (bisR_eof s1 []); auto.
  - intros [d1 s1] v r rest (bits & H1 & H2 & H3). cbn [arith_coder c_eof c_dec fst snd] in *.
    destruct (lrel_step g T n g0 gm g255 g256 HT Hn Hcb d1 bits v r rest H2) as (B & dv & d' & bits' & D1 & D2 & D3).
    inversion H3 as [|? ? F1 F2]; subst. split.
    + rewrite (bisR_eofb _ _ H1). destruct bits; [congruence|reflexivity].
    + pose proof (ac_dec_sim _ _ _ bis_sim r d1 _ _ H1) as G. rewrite D1 in G.
      destruct (ac_dec bis_read_bit r d1 s1) as [[[v' d2] s2]|]; [|contradiction].
      destruct G as [G1 G2]. cbn [fst snd] in G1, G2. injection G1 as -> ->.
      exists (d', s2). cbn [obind]. rewrite call_ok_val by auto. cbn [fst].
      rewrite D2 by (apply call_ok_simple_ex; auto). split; auto. exists bits'. auto.
  - exists bs. cbn [fst snd]. subst d. auto.
Qed.
Print Assumptions arith_roundtrip.

(** C26. encode(arithmetic) is lossless on those texts. *)
Theorem arith_encode_roundtrip : forall text, bytes_ok text -> arith_text text ->
  exists f, litenc_compress arith_coder text = Some f /\
    forall fuel, (length text <= fuel)%nat -> litenc_decompress arith_coder fuel f = Some text.
Proof.
  intros text Hb Ht.
  destruct (arith_roundtrip text (map (fun x => (x, RLit)) text)) as (f & s & R & E1 & E2 & E3 & E4); auto.
  - apply Forall_forall. intros c Hc. apply in_map_iff in Hc. destruct Hc as (v & <- & Hv).
    unfold bytes_ok in Hb. rewrite Forall_forall in Hb. exact (Hb v Hv).
  - exists [], text, []. cbn [app]. rewrite app_nil_r. split; [reflexivity|]. intros c [].
  - rewrite lits_of_lits. reflexivity.
  - rewrite lits_of_lits. apply incl_refl.
  - exists f. split; [exact E1|]. intros fuel Hf. unfold litenc_decompress. rewrite E2. cbn [obind].
    apply (litenc_loop_ok arith_coder R); auto.
Qed.
Print Assumptions arith_encode_roundtrip.

(** Outside that domain.  The empty text: the decoder's constructor reads memory in front of its
    codebook. *)
Theorem arith_empty_refuted : exists f, litenc_compress arith_coder [] = Some f /\
  forall fuel, litenc_decompress arith_coder fuel f = None.
Proof. eexists. split; [vm_compute; reflexivity|]. intros fuel. vm_compute. reflexivity. Qed.
Print Assumptions arith_empty_refuted.

(** A text of NULs only (of any length): the first literal is divided by an interval of size zero. *)
Theorem arith_nul_refuted : forall n, 0 < N.of_nat n < 2 ^ 32 - 1 -> litenc_compress arith_coder (repeat 0 n) = None.
Proof.
  intros n Hn. unfold litenc_compress. cbn [arith_coder c_enc]. unfold ac_bits.
  change (2 ^ 32 - 1) with 4294967295 in Hn.
  assert (Hb : bytes_ok (repeat 0 n)) by (apply Forall_forall; intros x Hx; apply repeat_spec in Hx; subst; reflexivity).
  rewrite (ac_count_cnts _ Hb) by (rewrite repeat_length; lia).
  assert (E : cnts (repeat 0 n) = N.of_nat n :: repeat 0 255).
  { unfold cnts. change (seq 0 256) with (0%nat :: seq 1 255). cbn [map]. f_equal.
    - unfold occ. rewrite count_occ_repeat_eq by reflexivity. reflexivity.
    - rewrite (map_ext_in _ (fun _ => 0)).
      + rewrite map_const, seq_length. reflexivity.
      + intros i Hi. apply in_seq in Hi. unfold occ. rewrite count_occ_repeat_neq; [reflexivity|lia]. }
  rewrite E. unfold build_intervals. rewrite ac_loop_ok.
  2:{ change (nsum (repeat 0 255)) with 0. lia. }
  2:{ change (filter nz (repeat 0 255)) with (@nil N). destruct (N.of_nat n =? 0); cbn; lia. }
  change (minnz (2 ^ 32 - 1) (repeat 0 255)) with 4294967295. cbn [obind].
  assert (Ep : psum (N.of_nat n) (repeat 0 255) = repeat (N.of_nat n) 255).
  { clear. generalize (N.of_nat n) as p. intros p. generalize 255%nat as k. induction k as [|k IH]; cbn [repeat psum]; [reflexivity|].
    rewrite N.add_0_l, IH. reflexivity. }
  rewrite Ep.
  assert (Ed : N.of_nat n / 4294967295 = 0) by (apply N.div_small; lia).
  assert (Em : map (fun y => y / 4294967295) (N.of_nat n :: repeat (N.of_nat n) 255) = repeat 0 256).
  { cbn [map]. rewrite Ed. change (repeat 0 256) with (0 :: repeat 0 255). f_equal.
    clear - Ed. generalize 255%nat as k. induction k as [|k IH]; cbn [repeat map]; [reflexivity|]. rewrite Ed, IH. reflexivity. }
  rewrite Em. destruct n as [|n]; [lia|]. cbn [repeat map ac_enc_calls ac_enc_call]. reflexivity.
Qed.
Print Assumptions arith_nul_refuted.

(** A text of 0xFF bytes only (of any length) decodes to the empty text. *)
Theorem arith_ff_refuted : forall n, 0 < N.of_nat n < 2 ^ 32 - 1 -> exists f,
  litenc_compress arith_coder (repeat 255 n) = Some f /\ forall fuel, litenc_decompress arith_coder fuel f = Some [].
Proof.
  intros n Hn. change (2 ^ 32 - 1) with 4294967295 in Hn. unfold litenc_compress. cbn [arith_coder c_enc]. unfold ac_bits.
  assert (Hb : bytes_ok (repeat 255 n)) by (apply Forall_forall; intros x Hx; apply repeat_spec in Hx; subst; reflexivity).
  rewrite (ac_count_cnts _ Hb) by (rewrite repeat_length; lia).
  assert (E : cnts (repeat 255 n) = 0 :: repeat 0 254 ++ [N.of_nat n]).
  { unfold cnts. change (seq 0 256) with (seq 0 255 ++ [255%nat]). rewrite map_app.
    change (0 :: repeat 0 254 ++ [N.of_nat n]) with (repeat 0 255 ++ [N.of_nat n]). f_equal.
    - rewrite (map_ext_in _ (fun _ => 0)).
      + rewrite map_const, seq_length. reflexivity.
      + intros i Hi. apply in_seq in Hi. unfold occ. rewrite count_occ_repeat_neq; [reflexivity|lia].
    - cbn [map]. unfold occ. rewrite count_occ_repeat_eq by reflexivity. reflexivity. }
  rewrite E. unfold build_intervals.
  assert (Ef : filter nz (repeat 0 254 ++ [N.of_nat n]) = [N.of_nat n]).
  { rewrite filter_app. change (filter nz (repeat 0 254)) with (@nil N). cbn [app filter]. unfold nz.
    destruct (N.eqb_spec (N.of_nat n) 0); [lia|reflexivity]. }
  rewrite ac_loop_ok.
  2:{ rewrite nsum_app. change (nsum (repeat 0 254)) with 0. rewrite nsum_cons. change (nsum []) with 0. lia. }
  2:{ rewrite Ef, N.eqb_refl. cbn. lia. }
  rewrite Ef.
  assert (Em : minnz (2 ^ 32 - 1) (repeat 0 254 ++ [N.of_nat n]) = N.of_nat n).
  { unfold minnz. rewrite fold_left_app. change (fold_left _ (repeat 0 254) (2 ^ 32 - 1)) with 4294967295. cbn [fold_left].
    destruct (N.eqb_spec (N.of_nat n) 0); [lia|]. apply N.min_r. lia. }
  rewrite Em.
  assert (Ep : 0 :: psum 0 (repeat 0 254 ++ [N.of_nat n]) = repeat 0 255 ++ [N.of_nat n]).
  { change (repeat 0 255) with (0 :: repeat 0 254). cbn [app]. f_equal. generalize 254%nat as k. clear.
    induction k as [|k IH]; cbn [repeat app psum]; [rewrite N.add_0_r; reflexivity|]. rewrite N.add_0_l, IH. reflexivity. }
  rewrite Ep. rewrite map_app.
  assert (Ez : map (fun y => y / N.of_nat n) (repeat 0 255) = repeat 0 255).
  { generalize 255%nat as k. assert (Hd : 0 / N.of_nat n = 0) by (apply N.div_0_l; lia). clear - Hd.
    induction k as [|k IH]; cbn [repeat map]; [reflexivity|]. rewrite Hd, IH. reflexivity. }
  rewrite Ez. cbn [map]. rewrite N.div_same by lia. cbn [obind].
  set (e := mk_aenc _ _ _ _).
  assert (G : forall k cnt, cnt + N.of_nat k <= N.of_nat n ->
    ac_enc_calls e (mk_abnd 0 u64max cnt) (map (fun x => (x, RLit)) (repeat 255 k)) = Some []).
  { induction k as [|k IH]; intros cnt Hk; [reflexivity|]. cbn [repeat map ac_enc_calls ac_enc_call].
    assert (Es : setNewBounds e (mk_abnd 0 u64max cnt) 255 = Some ([], 0, u64max)) by (vm_compute; reflexivity).
    rewrite Es. cbn [obind ab_cnt].
    assert (Ew : w32 (cnt + 1) = cnt + 1) by (unfold w32; apply N.mod_small; change (2 ^ 32) with 4294967296; lia).
    rewrite Ew. assert (E0 : ae_count e = 0).
    { unfold e. cbn [ae_count]. rewrite app_nth1; [apply nth_repeat|rewrite repeat_length; lia]. }
    rewrite E0. destruct (N.eqb_spec (cnt + 1) 0); [lia|]. cbn [app]. rewrite IH by lia. reflexivity. }
  rewrite G by lia. cbn [obind]. eexists. split; [reflexivity|]. intros fuel. rewrite app_nil_r.
  assert (Eh : writeCodebook e = write_int 0 32 ++ write_int 1 8 ++ write_int 255 8 ++ write_int 1 32).
  { unfold e. vm_compute. reflexivity. }
  rewrite Eh. destruct fuel; vm_compute; reflexivity.
Qed.
Print Assumptions arith_ff_refuted.

(** 0xFF among other literals, a NUL rarer than every other literal, and a bit between two literals:
    counterexamples.  The literals a, b, c with a bit behind the second: the encoder writes the bit before the code
    block, whereas the decoder expects the code block first. *)
Theorem arith_mixed_refuted :
  (exists f, litenc_compress arith_coder [97; 255] = Some f /\ litenc_decompress arith_coder 9 f = Some [97]) /\
  (exists f, litenc_compress arith_coder [97; 97; 0] = Some f /\ litenc_decompress arith_coder 9 f <> Some [97; 97; 0]) /\
  (exists f s x, c_enc arith_coder [97; 98; 99] [(97, RLit); (98, RLit); (1, RBit); (99, RLit)] = Some f /\
     c_open arith_coder f = Some s /\ c_dec arith_coder RLit s = x /\ option_map fst x <> Some 97).
Proof.
  split; [|split].
  - eexists. split; [vm_compute; reflexivity|]. vm_compute. reflexivity.
  - eexists. split; [vm_compute; reflexivity|]. vm_compute. discriminate.
  - eexists _, _, _. split; [vm_compute; reflexivity|]. split; [vm_compute; reflexivity|]. split; [reflexivity|]. vm_compute. discriminate.
Qed.
Print Assumptions arith_mixed_refuted.

(** In particular lzss(..., arithmetic), which writes factors between runs of literals, is not lossless. *)
Theorem arith_lzss_refuted : exists f, lzss_encode arith_coder [97; 98; 97; 98; 99] [mk_f 2 0 2] = Some f /\
  lzss_decode arith_coder 9 f <> Some [97; 98; 97; 98; 99].
Proof. eexists. split; [vm_compute; reflexivity|]. vm_compute. discriminate. Qed.
Print Assumptions arith_lzss_refuted.

(** Non-vacuity: a text with several code blocks, NUL included, and calls around the literals. *)
Definition ar_text : list N := concat (repeat [0; 97; 98; 254; 98] 20).
Example arith_text_ex : arith_text ar_text.
Proof.
  split; [reflexivity|]. split.
  - intros H. assert (E : existsb (fun x => x =? 255) ar_text = false) by (vm_compute; reflexivity).
    assert (existsb (fun x => x =? 255) ar_text = true); [|congruence]. apply existsb_exists. exists 255. split; auto.
  - exists 97. split; [|split; [discriminate|split; [|vm_compute; reflexivity]]].
    + assert (E : existsb (fun x => x =? 97) ar_text = true) by (vm_compute; reflexivity).
      apply existsb_exists in E. destruct E as (x & Hx & Ex). apply N.eqb_eq in Ex. subst. auto.
    + assert (E : forallb (fun d => (freq ar_text 97 <=? freq ar_text d)%nat) ar_text = true) by (vm_compute; reflexivity).
      intros d Hd. rewrite forallb_forall in E. apply Nat.leb_le. auto.
Qed.
Definition ar_cs : list call := [(5, RInt 3 9); (1, RBit)] ++ map (fun v => (v, RLit)) (rev ar_text) ++ [(77, RInt 0 100)].
Example arith_ex : contiguous ar_cs /\ length (lits_of ar_cs) = length ar_text /\
  (exists f, c_enc arith_coder ar_text ar_cs = Some f /\
     (48 < length f)%nat /\
     (do s <- c_open arith_coder f; do (v, s) <- c_dec arith_coder (RInt 3 9) s;
      do (w, s) <- c_dec arith_coder RBit s; do (x, s) <- c_dec arith_coder RLit s; Some [v; w; x]) = Some [5; 1; 98]).
Proof.
  split; [|split; [vm_compute; reflexivity|]].
  - eexists _, _, _. split; [reflexivity|]. intros c [<-|[<-|[<-|[]]]]; discriminate.
  - eexists. split; [vm_compute; reflexivity|]. split; [apply Nat.ltb_lt; vm_compute; reflexivity|vm_compute; reflexivity].
Qed.
