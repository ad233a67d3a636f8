(** Property C43: LZ78U. *)
From Verif Require Import Base BitIO BitIOProofs IntCodes IntCodesProofs Coders CodersProofs LooseCoders
  Huffman HuffmanSpec HuffmanProofs PropHuffman BitCoders Lfs LfsSpec LfsProofs LZ78U LZ78UProofs LZ78UDecProofs.
Local Open Scope nat_scope.

Lemma strategy_ok cr cs (Pr Ps : list N -> Prop) body fs : bcoder_ok Pr cr -> bcoder_ok Ps cs -> Pr [] ->
  bytes_ok body -> (N.of_nat (length body) + 1 < 2 ^ 32)%N -> facts body [] fs body ->
  forall lits, bytes_ok lits -> incl (ev_chars (concat fs)) lits -> Ps lits ->
  exists f, enc_strategy cr cs lits (concat fs) = Some f /\ bytes_ok f /\
    forall fuel, length body + 1 < fuel -> lz78u_decompress cr cs fuel f = Some (body ++ [0%N]).
Proof.
  intros Hr Hs Pr0 Hb Hn Hf lits Hl Hi HP.
  destruct (Hr [] (Forall_nil _) Pr0) as (sr & h1 & dr & R1 & R2 & R3).
  destruct (Hs lits Hl HP) as (ss & h2 & ds & S1 & S2 & S3).
  unfold enc_strategy. rewrite R1, S1. cbn [obind].
  destruct (facts_ok cr cs body lits sr dr ss ds R3 S3 Hl [] fs body Hf []) as (b & B1 & B2); auto.
  { split; [reflexivity|]. split; [reflexivity|]. intros [|k] ? ?; discriminate. }
  { pose proof (facts_len _ _ _ _ Hf). cbn [length]. lia. }
  rewrite B1. cbn [obind]. eexists. split; [reflexivity|]. split; [apply bitstream_bytes_ok_pf|].
  intros fuel Hfu. unfold lz78u_decompress.
  destruct (R2 _ _ (bisR_file (h1 ++ h2 ++ b))) as (s1 & -> & G1). cbn [obind].
  destruct (S2 _ _ G1) as (s2 & -> & G2). cbn [obind]. apply B2; auto. lia.
Qed.

(** C43. Every threshold but 0, every text without NUL (the compressor's input restriction; the
    terminating 0 is part of the restricted text), every pair of coders that work on a shared
    bit stream: compression ends, and if there are fewer factors than fit into the entries of
    R, the buffering strategy is decompressed to the text. *)
Theorem lz78u_buffering_roundtrip : forall cr cs (Pr Ps : list N -> Prop) body th fuel,
  let text := body ++ [0%N] in
  bcoder_ok Pr cr -> bcoder_ok Ps cs -> Pr [] -> bytes_ok body -> Forall (fun c => c <> 0%N) body ->
  (N.of_nat (length text) < 2 ^ 32)%N -> 1 <= th -> length body < fuel ->
  exists fs, lz78u_factors fuel text th = Some fs /\
    ((N.of_nat (length fs) < 2 ^ N.of_nat (r_width text))%N -> Ps (ev_chars (concat fs)) ->
     exists f, lz78u_buffering cr cs fuel text th = Some f /\ bytes_ok f /\
       forall fuel', length text < fuel' -> lz78u_decompress cr cs fuel' f = Some text).
Proof.
  intros cr cs Pr Ps body th fuel text Hr Hs Pr0 Hb Hz Hn Hth Hf. subst text. rewrite app_length in *. cbn [length] in *.
  destruct (loop_ok body Hz th Hth ltac:(rewrite app_length; cbn; lia) fuel [] [] 0 ltac:(lia)) as (fs & E1 & E2).
  exists fs. split; [exact E1|]. intros Hw HP.
  assert (F : facts body [] fs body). { apply E2; auto. split; [reflexivity|]. intros w Hw'. exfalso. apply Hw'. reflexivity. }
  unfold lz78u_buffering, buffering. change (lz78u_factors fuel (body ++ [0%N]) th = Some fs) in E1. rewrite E1. cbn [obind].
  destruct (strategy_ok cr cs Pr Ps body fs Hr Hs Pr0 Hb ltac:(lia) F (ev_chars (concat fs))) as (f & F1 & F2 & F3); auto.
  { apply Forall_forall. intros c Hc. destruct (facts_chars _ _ _ _ F c Hc) as [->|Hc']; [reflexivity|].
    unfold bytes_ok in Hb. rewrite Forall_forall in Hb. auto. }
  { intros x; auto. }
  exists f. split; [exact F1|]. split; [exact F2|]. intros fuel' Hf'. apply F3. lia.
Qed.
Print Assumptions lz78u_buffering_roundtrip.

(** C43. The streaming strategy, with every universal coder for the characters. *)
Theorem lz78u_streaming_roundtrip : forall cr k (Pr : list N -> Prop) body th fuel,
  let text := body ++ [0%N] in
  bcoder_ok Pr cr -> Pr [] -> bytes_ok body -> Forall (fun c => c <> 0%N) body ->
  (N.of_nat (length text) < 2 ^ 32)%N -> 1 <= th -> length body < fuel ->
  exists fs, lz78u_factors fuel text th = Some fs /\
    ((N.of_nat (length fs) < 2 ^ N.of_nat (r_width text))%N ->
     exists f, lz78u_streaming cr (simple_b k) fuel text th = Some f /\ bytes_ok f /\
       forall fuel', length text < fuel' -> lz78u_decompress cr (simple_b k) fuel' f = Some text).
Proof.
  intros cr k Pr body th fuel text Hr Pr0 Hb Hz Hn Hth Hf.
  destruct (lz78u_buffering_roundtrip cr (simple_b k) Pr (fun _ => True) body th fuel Hr (simple_b_ok k) Pr0 Hb Hz Hn Hth Hf) as (fs & E1 & E2).
  exists fs. split; [exact E1|]. intros Hw. destruct (E2 Hw I) as (f & F1 & F2 & F3). exists f. split; [|split; auto].
  rewrite <- F1. unfold lz78u_streaming, lz78u_buffering, streaming, buffering, enc_strategy. reflexivity.
Qed.
Print Assumptions lz78u_streaming_roundtrip.

(** ** the characters collected for the Huffman coder *)
Lemma subs_count body fulls k buf lab es : subs body fulls k buf lab es -> length (ev_chars es) <= k.
Proof. induction 1; unfold ev_chars in *; cbn [flat_map app length] in *; lia. Qed.
Lemma chars_map l : ev_chars (map EChr l) = l.
Proof. induction l as [|a l IH]; [reflexivity|]. cbn [map]. rewrite chars_cons, IH. reflexivity. Qed.
Lemma facts_count body fulls fs text : facts body fulls fs text -> length (ev_chars (concat fs)) <= 3 * length text.
Proof.
  induction 1 as [|fulls f fs ref lab rest (_ & H2 & H3) Hne Hfs IH]; [cbn; lia|]. cbn [concat]. rewrite chars_app, !app_length.
  assert (1 <= length (full fulls ref ++ lab)) by (destruct (full fulls ref ++ lab); [congruence|cbn; lia]). rewrite app_length in *.
  destruct H3 as [->|(s & -> & Hs)].
  - rewrite !chars_cons. cbn [app]. unfold ev_str. rewrite chars_app, chars_map, app_length. cbn [ev_chars flat_map length app]. lia.
  - rewrite !chars_cons. cbn [app]. pose proof (subs_count _ _ _ _ _ _ Hs). lia.
Qed.

Lemma factors_facts body th fuel fs : Forall (fun c => c <> 0%N) body -> (N.of_nat (length body) + 1 < 2 ^ 32)%N -> 1 <= th -> length body < fuel ->
  lz78u_factors fuel (body ++ [0%N]) th = Some fs -> (N.of_nat (length fs) < 2 ^ N.of_nat (r_width (body ++ [0%N])))%N -> facts body [] fs body.
Proof.
  intros Hz Hn Hth Hf E Hw.
  destruct (loop_ok body Hz th Hth ltac:(rewrite app_length; cbn; lia) fuel [] [] 0 ltac:(lia)) as (fs' & E1 & E2).
  change (lz78u_factors fuel (body ++ [0%N]) th = Some fs') in E1. rewrite E in E1. injection E1 as <-.
  apply E2; auto. split; [reflexivity|]. intros w Hw'. exfalso. apply Hw'. reflexivity.
Qed.

(** C43. The buffering strategy with the Huffman coder, for texts without the byte 255. *)
Corollary lz78u_huffman_roundtrip : forall L is_heap k body th fuel,
  let text := body ++ [0%N] in
  stdlib_ok L is_heap -> bytes_ok body -> Forall (fun c => c <> 0%N /\ c <> 255%N) body ->
  (3 * N.of_nat (length text) < 2 ^ 32)%N -> 1 <= th -> length body < fuel ->
  exists fs, lz78u_factors fuel text th = Some fs /\
    ((N.of_nat (length fs) < 2 ^ N.of_nat (r_width text))%N ->
     exists f, lz78u_buffering (simple_b k) (huff_b L) fuel text th = Some f /\ bytes_ok f /\
       forall fuel', length text < fuel' -> lz78u_decompress (simple_b k) (huff_b L) fuel' f = Some text).
Proof.
  intros L ih k body th fuel text HL Hb Hz Hn Hth Hf.
  assert (Hz' : Forall (fun c => c <> 0%N) body) by (revert Hz; apply Forall_impl; tauto).
  assert (Hlen : length text = length body + 1) by (unfold text; rewrite app_length; reflexivity).
  destruct (lz78u_buffering_roundtrip (simple_b k) (huff_b L) (fun _ => True) huff_lits body th fuel (simple_b_ok k) (huff_b_ok L ih HL) I Hb Hz' ltac:(fold text; lia) Hth Hf) as (fs & E1 & E2).
  exists fs. split; [exact E1|]. intros Hw. apply E2; auto.
  pose proof (factors_facts body th fuel fs Hz' ltac:(lia) Hth Hf E1 Hw) as F. split.
  - left. apply Forall_forall. intros c Hc. destruct (facts_chars _ _ _ _ F c Hc) as [->|Hc']; [lia|].
    unfold bytes_ok in Hb. rewrite Forall_forall in *. specialize (Hb c Hc'). specialize (Hz c Hc'). unfold byte_ok in Hb. lia.
  - pose proof (facts_count _ _ _ _ F). lia.
Qed.
Print Assumptions lz78u_huffman_roundtrip.

(** every character of the text is written as a character somewhere *)
Lemma subs_lab body fulls k buf lab es : subs body fulls k buf lab es -> forall c, In c lab ->
  In c buf \/ In c (ev_chars es) \/ exists w, In w fulls /\ In c w.
Proof.
  induction 1 as [| | |k buf lab cut es Hc Hm Hs IH]; intros x Hx; auto.
  - destruct (IHsubs x Hx) as [G|G]; [|cbn; tauto]. apply in_app_or in G. cbn in G |- *. intuition.
  - destruct (IHsubs x Hx) as [G|G]; [|cbn; tauto]. apply in_app_or in G. destruct G as [G|G]; auto.
    right. right. exists w. split; auto. eapply nth_error_In; eauto.
  - destruct (IH x Hx) as [G|G]; [|cbn; tauto]. left. rewrite <- (firstn_skipn (length buf - cut) buf). apply in_or_app. auto.
Qed.
Lemma facts_all body fulls fs text : facts body fulls fs text -> forall c, In c text ->
  In c (ev_chars (concat fs)) \/ exists w, In w fulls /\ In c w.
Proof.
  induction 1 as [|fulls f fs ref lab rest (H1 & H2 & H3) Hne Hfs IH]; intros c Hc; [destruct Hc|].
  assert (W : In c (full fulls ref ++ lab) -> In c (ev_chars f) \/ exists w, In w fulls /\ In c w).
  { intros G. apply in_app_or in G. destruct G as [G|G].
    - right. unfold full in G. destruct (N.eqb_spec ref 0); [destruct G|].
      exists (nth (N.to_nat (ref - 1)) fulls []). split; auto. apply nth_In. lia.
    - destruct H3 as [->|(s & -> & Hs)].
      + left. cbn. unfold ev_str. rewrite chars_app, chars_map. apply in_or_app. auto.
      + destruct (subs_lab _ _ _ _ _ _ Hs c G) as [[]|[Q|Q]]; auto. }
  cbn [concat]. rewrite chars_app. apply in_app_or in Hc. destruct Hc as [Hc|Hc].
  - destruct (W Hc); auto. left. apply in_or_app. auto.
  - destruct (IH c Hc) as [G|(w & G1 & G2)]; [left; apply in_or_app; auto|].
    apply in_app_or in G1. destruct G1 as [G1|[<-|[]]]; [eauto|]. destruct (W G2); auto. left. apply in_or_app. auto.
Qed.
(** C43. With the Huffman coder a text that contains the byte 255 makes the constructor of the
    coder write outside its table. *)
Theorem lz78u_huffman_255_refuted : forall L is_heap k body th fuel fs,
  let text := body ++ [0%N] in
  stdlib_ok L is_heap -> bytes_ok body -> Forall (fun c => c <> 0%N) body -> In 255%N body ->
  (3 * N.of_nat (length text) < 2 ^ 32)%N -> 1 <= th -> length body < fuel ->
  lz78u_factors fuel text th = Some fs -> (N.of_nat (length fs) < 2 ^ N.of_nat (r_width text))%N ->
  lz78u_buffering (simple_b k) (huff_b L) fuel text th = None.
Proof.
  intros L ih k body th fuel fs text HL Hb Hz Hin Hn Hth Hf E Hw.
  assert (Hlen : length text = length body + 1) by (unfold text; rewrite app_length; reflexivity).
  pose proof (factors_facts body th fuel fs Hz ltac:(lia) Hth Hf E Hw) as F.
  unfold lz78u_buffering. rewrite E. cbn [obind]. unfold buffering, enc_strategy.
  destruct (bc_init (simple_b k) []) as [[sr h1]|]; [|reflexivity]. cbn [obind huff_b bc_init].
  set (cs := ev_chars (concat fs)).
  assert (Hbt : bytes_ok cs).
  { apply Forall_forall. intros c Hc. destruct (facts_chars _ _ _ _ F c Hc) as [->|Hc']; [reflexivity|].
    unfold bytes_ok in Hb. rewrite Forall_forall in Hb. auto. }
  assert (Hcl : (N.of_nat (length cs) < 2 ^ 32)%N) by (pose proof (facts_count _ _ _ _ F); unfold cs; lia).
  assert (H0 : In 0%N cs).
  { unfold cs. inversion F as [? X Y Z|? f fs' ref lab rest (_ & _ & H3) _ _ X Y Z]; [rewrite <- Z in Hin; destruct Hin|].
    subst fs. cbn [concat]. rewrite chars_app. apply in_or_app. left. destruct H3 as [->|(s & -> & Hs)].
    - cbn. unfold ev_str. rewrite chars_app. apply in_or_app. right. left. auto.
    - rewrite !chars_cons. cbn [app]. clear - Hs. induction Hs; rewrite ?chars_cons; cbn [app In]; auto. }
  rewrite (init_255 L ih cs (alpha cs) 0%N HL (alpha_eq cs)); auto.
  - symmetry. exact (effective_size cs Hbt Hcl).
  - exact (fun i => alpha_in cs i Hbt Hcl).
  - destruct (facts_all _ _ _ _ F 255%N Hin) as [G|(w & [] & _)]. exact G.
  - discriminate.
Qed.
Print Assumptions lz78u_huffman_255_refuted.

(** C43. threshold=0: for every nonempty text compression does not end. *)
Theorem lz78u_threshold0_refuted : forall body fuel,
  body <> [] -> Forall (fun c => c <> 0%N) body -> lz78u_factors fuel (body ++ [0%N]) 0 = None.
Proof.
  intros body fuel Hne Hz. unfold lz78u_factors. set (T := body ++ [0%N]).
  assert (HT : length T - 1 = length body) by (unfold T; rewrite app_length; cbn; lia).
  assert (Hp : 0 < length body) by (destruct body; [congruence|cbn; lia]).
  assert (W : forall pos ds, fst (walk T [] pos 0 ds) = 0) by (intros pos [|d ds]; reflexivity).
  assert (S0 : forall fl fc b e, b < e -> sub_loop T 0 fl [] fc b e = None).
  { induction fl as [|fl IH]; intros fc b e He; cbn [sub_loop]; replace (b <? e) with true by lia; auto.
    rewrite W. change (0 <? 0) with false. rewrite Nat.add_0_r. rewrite IH by auto. reflexivity. }
  assert (O : forall fl b e, b < e -> e <= length body -> out_factor T 0 fl [] 0 b e 0 = None).
  { intros fl b e H1 H2. unfold out_factor. unfold T. rewrite (strip_ok body Hz) by lia. fold T. cbn [obind].
    replace (e <? b) with false by lia. change (0 <=? e - b) with true. rewrite S0 by auto. reflexivity. }
  destruct fuel as [|fuel]; cbn [lz78u_loop]; rewrite HT; replace (0 <? length body) with true by lia; auto.
  set (pd := last (depths T 0) 0). cbn [rget]. change (0 =? 0)%N with true. cbn [negb]. rewrite Bool.orb_false_r.
  destruct (Nat.eqb_spec pd 0) as [E|E].
  - rewrite E. cbn [Nat.add]. rewrite O by lia. reflexivity.
  - destruct (walk T [] 0 0 (tl (depths T 0))) as [p o] eqn:Wk.
    destruct (walk_depth body Hz [] 0 Hp p o Wk) as (W1 & W2 & W3).
    assert (p = 0) by (pose proof (W 0 (tl (depths T 0))) as Q; rewrite Wk in Q; exact Q). subst p.
    destruct o as [d|]; [|reflexivity]. destruct W3. cbn [Nat.add]. rewrite O by lia. reflexivity.
Qed.
Print Assumptions lz78u_threshold0_refuted.

(** C43. When there are more factors than the entries of R can hold the text is lost: a text of
    70 letters with 34 factors, where R has 5 bits per entry. *)
Definition lz78u_text : list N :=
  [98;97;101;99;102;99;98;100;102;99;98;97;97;102;98;99;98;101;97;100;98;97;100;97;97;102;102;97;102;97;99;98;102;97;101;97;
   99;97;100;100;100;99;101;102;100;102;102;98;98;97;98;100;99;100;98;100;97;97;97;101;100;99;99;101;98;102;97;102;97;97]%N.
Theorem lz78u_overflow_refuted : exists body f other,
  bytes_ok body /\ Forall (fun c => c <> 0%N) body /\
  lz78u_streaming (simple_b Ascii) (simple_b Ascii) 100 (body ++ [0%N]) 3 = Some f /\
  lz78u_decompress (simple_b Ascii) (simple_b Ascii) 300 f = Some other /\ other <> body ++ [0%N].
Proof.
  exists lz78u_text.
  assert (E : exists f other, lz78u_streaming (simple_b Ascii) (simple_b Ascii) 100 (lz78u_text ++ [0%N]) 3 = Some f /\
    lz78u_decompress (simple_b Ascii) (simple_b Ascii) 300 f = Some other /\ list_eqb other (lz78u_text ++ [0%N]) = false).
  { destruct (lz78u_streaming (simple_b Ascii) (simple_b Ascii) 100 (lz78u_text ++ [0%N]) 3) as [f|] eqn:E1; [|vm_compute in E1; discriminate].
    assert (X : match lz78u_decompress (simple_b Ascii) (simple_b Ascii) 300 f with Some o => list_eqb o (lz78u_text ++ [0%N]) = false | None => False end).
    { vm_compute in E1. injection E1 as <-. vm_compute. reflexivity. }
    destruct (lz78u_decompress (simple_b Ascii) (simple_b Ascii) 300 f) as [o|] eqn:E2; [|contradiction].
    exists f, o. auto. }
  destruct E as (f & o & E1 & E2 & E3). exists f, o.
  split; [repeat constructor|]. split; [repeat constructor; discriminate|]. split; auto. split; auto.
  intros ->. assert (Q : list_eqb (lz78u_text ++ [0%N]) (lz78u_text ++ [0%N]) = true) by (apply list_eqb_spec; auto). congruence.
Qed.
Print Assumptions lz78u_overflow_refuted.

(** ** Example: the text of test/lz78u_tests.cpp; the first label is long enough to be
    factorized, a later one uses a reference *)
Example lz78u_ex : lz78u_factors 13 ([97;98;99;100;101;98;99;100;101;97;98;99] ++ [0])%N 3 = Some
  [[ERef 0 0; ESep false; ESep false; EChr 97; ESep false; EChr 98; ESep false; EChr 99; ESep false; EChr 0];
   [ERef 0 1; ESep true; EChr 100; EChr 101; EChr 0]; [ERef 0 2; ESep true; EChr 98; EChr 99; EChr 0];
   [ERef 2 3; ESep true; EChr 97; EChr 0]; [ERef 3 4; ESep true; EChr 0]]%N /\
  r_width ([97;98;99;100;101;98;99;100;101;97;98;99] ++ [0])%N = 4.
Proof. split; vm_compute; reflexivity. Qed.
(** a sub reference with a cut *)
Example lz78u_ex_cut : exists fs, lz78u_factors 40 ([97;98;99;120;97;98;99;97;98;99;121;97;98;122;97;98;122] ++ [0])%N 1 = Some fs /\
  length fs < 2 ^ r_width ([97;98;99;120;97;98;99;97;98;99;121;97;98;122;97;98;122] ++ [0])%N.
Proof. eexists. split; [vm_compute; reflexivity|]. vm_compute. lia. Qed.
