(** C40: the factorisation strategies of lcpcomp and of the LCP-based LZSS compressor. *)
From Coq Require Import Permutation.
From Verif Require Import Base BitIO IntCodes IntCodesProofs Coders CodersProofs LooseCoders
  LZSS LZSSSpec LZSSProofs LCPDec SASpec SAComp SACompProofs Strategies MaxQueues StrategySpec
  StrategyProofs PlcpStrategy PlcpStrategyProofs ArraysProofs MSLProofs HeapProofs LZSSLCPProofs PropLZSS PropLCPDec PropBWT PropSAComp.
Local Open Scope nat_scope.

(** the values of lcpcomp's option "comp" that deliver factorisations; the remaining one is
    the heap strategy (below) *)
Inductive strategy := Naive | PLCPPeaks | Arrays | MaxLCP | Boost | Bulldozer | PLCP.
Definition run (s : strategy) (thr : nat) (sa isa lcp plcp : list nat) (mx : nat) : option (list factor) :=
  match s with
  | Naive => naive (length sa) thr sa isa lcp
  | PLCPPeaks => plcp_peaks (length sa) thr sa isa plcp
  | Arrays => arrays_comp thr sa isa lcp mx
  | MaxLCP => max_lcp_strategy thr sa isa lcp mx
  | Boost => boost_strategy thr sa isa lcp
  | Bulldozer => bulldozer thr sa lcp
  | PLCP => plcp_strategy thr sa isa plcp
  end.

Lemma filter_seq_le f n : length (filter f (seq 0 n)) <= n.
Proof.
  rewrite <- (seq_length n 0) at 2. generalize (seq 0 n). induction l as [|x l IH]; simpl; auto. destruct (f x); simpl; lia.
Qed.

(** C40. For every terminated text with its index arrays and every threshold >= 1 each strategy
    ends (within length-many turns), stays inside its arrays and returns factors that are at
    least [thr] long, lie inside the text without its terminator, do not overlap, spell what
    they replace, and whose references do not form cycles. *)
Theorem strategies_factorise : forall s thr text sa isa lcp plcp mx,
  1 <= thr -> terminated text -> index_of text sa isa lcp plcp mx ->
  exists fs, run s thr sa isa lcp plcp mx = Some fs /\ factorisation text thr fs.
Proof.
  intros s thr text sa isa lcp plcp mx Hthr Ht (Hs & L1 & L2 & L3 & Hi & H0 & HL).
  assert (HL1 : forall i, 1 <= i < length text -> nth_error lcp i = Some (lcp_at text (nth (i - 1) sa 0) (nth i sa 0))) by (intros i X; apply (HL i X)).
  assert (HL2 : forall i, 1 <= i < length text -> nth_error plcp (nth i sa 0) = Some (lcp_at text (nth (i - 1) sa 0) (nth i sa 0))) by (intros i X; apply (HL i X)).
  assert (HM : forall i, i < length lcp -> nth i lcp 0 <= mx).
  { intros i X. destruct (Nat.eq_dec i 0) as [->|].
    - rewrite (nth_error_nth _ _ 0 H0). lia.
    - rewrite (nth_error_nth _ _ 0 (HL1 i ltac:(lia))). apply HL. lia. }
  pose proof (len_sa' text sa Hs) as Ln. pose proof (np text Ht) as Hn. cbv zeta in Hn.
  pose proof (first_is_last text sa Hs Ht) as FL.
  assert (Fnd : forall fs, found text sa isa thr (fun _ => False) fs -> factorisation text thr fs).
  { intros fs (A & B). apply (pred_factors_ok text sa isa Hs Ht Hi); auto.
    eapply Forall_impl; [|exact A]. cbv beta. tauto. }
  assert (R0 : rk isa (length text - 1) = 0) by (rewrite <- FL; apply (rk_sa text sa isa Hi); lia).
  destruct s; cbn [run].
  - rewrite Ln. destruct (naive_ok text sa isa Hs Ht Hi lcp thr HL1 Hthr (length text) 0 (repeat false (length sa))) as (fs & E & S); try lia.
    { rewrite repeat_length. auto. }
    exists fs. split; auto. eapply (scanned_fact text sa isa Hs Ht Hi). eauto.
  - rewrite Ln. destruct (peaks_ok text sa isa Hs Ht Hi plcp thr L3 HL2 Hthr (length text) 0 0) as (fs & E & S); try lia.
    exists fs. split; auto. eapply (scanned_fact text sa isa Hs Ht Hi). eauto.
  - destruct (arrays_ok text sa isa Hs Ht Hi thr Hthr lcp mx) as (fs & E & F); auto.
    + intros i X. apply HL. auto.
    + exists fs. split; auto.
  - unfold max_lcp_strategy. destruct (msl_new_ok lcp thr mx Hthr ltac:(lia) HM) as (q & -> & V & K). cbn [obind]. rewrite L2 in *.
    pose proof (msl_queue (length text) mx) as MQ.
    destruct (queue_loop_ok text sa isa Hs Ht Hi msl_ops (msl_ok (length text) mx) msl_mem msl_key (max_bag text _ _ _ _ MQ) thr Hthr MQ (length sa) q (fun _ => False)) as (fs & E & F); auto.
    + intros x Hx M. destruct (rk_bound text sa isa Hs Hi x Hx) as (B & _). destruct (K (rk isa x) B) as [Ek Em]. rewrite Ek. apply Em. auto.
    + rewrite R0. destruct (msl_mem q 0) eqn:M; auto. apply K in M; lia.
    + destruct MQ as (_ & M2 & _). rewrite M2 by auto. rewrite Ln. apply filter_seq_le.
    + intros x Hx M. destruct (rk_bound text sa isa Hs Hi x ltac:(lia)) as (B & _). destruct (K (rk isa x) B) as [Ek Em]. split; auto.
      rewrite Ek. pose proof (lcp_PL text sa isa Hs Ht Hi lcp HL1 x Hx) as Y. rewrite (nth_error_nth _ _ 0 Y). auto.
    + exists fs. split; auto.
  - unfold boost_strategy. pose proof (boost_queue (length text)) as MQ.
    set (items := filter _ _). set (q := mk_bh lcp sa items).
    assert (Im : forall i, In i items <-> 1 <= i < length text /\ thr <= nth i lcp 0).
    { intros i. unfold items. rewrite filter_In, in_seq, L2. split.
      - intros [A B]. split; [lia|]. rewrite (nth_error_nth' lcp 0) in B by lia. lia.
      - intros [A B]. split; [lia|]. rewrite (nth_error_nth' lcp 0) by lia. lia. }
    assert (V : b_ok (length text) q).
    { repeat split; auto; cbn [q b_items].
      - apply NoDup_filter, seq_NoDup.
      - apply Forall_forall. intros i X. apply Im in X. lia. }
    destruct (queue_loop_ok text sa isa Hs Ht Hi boost_ops (b_ok (length text)) b_mem b_get (max_bag text _ _ _ _ MQ) thr Hthr MQ (length sa) q (fun _ => False)) as (fs & E & F); auto.
    + intros x Hx M. apply b_mem_in, Im in M. unfold b_get. cbn. lia.
    + rewrite R0. destruct (b_mem q 0) eqn:M; auto. apply b_mem_in, Im in M. lia.
    + destruct MQ as (_ & M2 & _). rewrite M2 by auto. rewrite Ln. apply filter_seq_le.
    + intros x Hx M. split; auto. unfold b_get. cbn [q b_key].
      pose proof (lcp_PL text sa isa Hs Ht Hi lcp HL1 x Hx) as Y. rewrite (nth_error_nth _ _ 0 Y). auto.
    + exists fs. split; auto.
  - exists []. split; auto. split; [constructor|]. split; [constructor|]. split; [intros f j []|]. exists (fun _ => 0). intros f j [].
  - unfold plcp_strategy. destruct (poi_loop_ok text sa isa Hs Ht Hi thr Hthr plcp L3 HL2 (2 * length sa) 0 [] 0 0) as (fs & E & F & D & _); try lia.
    { intros X. congruence. }
    exists fs. split; auto. apply (pred_factors_ok text sa isa Hs Ht Hi); auto.
Qed.
Print Assumptions strategies_factorise.

Lemma indexed cm text sa : terminated text -> is_sa text sa -> small text ->
  exists isa phi plcp mx lcp, isa_new cm sa = Some isa /\ phi_new cm sa = Some phi /\
    plcp_new cm text phi = Some (plcp, mx) /\ lcp_new cm sa plcp mx = Some lcp /\ index_of text sa isa lcp plcp mx.
Proof.
  intros Ht Hs Hn. destruct (companions_correct cm text sa Ht Hs Hn) as (isa & phi & plcp & mx & lcp & E1 & E2 & E3 & E4 & P1 & _ & P2 & P3 & _).
  exists isa, phi, plcp, mx, lcp. do 4 (split; auto).
  destruct (isa_ok text sa Hs Hn cm) as (isa' & E1' & L1 & _). rewrite E1 in E1'. injection E1' as <-.
  destruct (plcp_ok text sa Hs Ht Hn cm) as (phi' & plcp' & f & E2' & F & FL & E3' & L3 & P4 & P5).
  rewrite E2 in E2'. injection E2' as <-. rewrite E3 in E3'. injection E3' as <- Emx.
  assert (V : forall i, 1 <= i < length text -> nth_error plcp (nth i sa 0) = Some (lcp_at text (nth (i - 1) sa 0) (nth i sa 0)) /\
    lcp_at text (nth (i - 1) sa 0) (nth i sa 0) <= mx) by (intros i X; destruct (P3 i X) as (A & B & C & D); auto).
  destruct (lcp_ok text sa Hs Ht Hn cm plcp mx V) as (lcp' & E4' & L4 & _).
  { rewrite Emx. apply (maxl_lt text sa); auto. }
  rewrite E4 in E4'. injection E4' as <-.
  split; auto. split; auto. split; auto. split; auto. split; auto. split; auto. intros i X. destruct (P3 i X) as (A & B & C & D). auto.
Qed.

(** C40, end to end: lcpcomp compresses and decompresses every text (not containing NUL and
    followed by a NUL, as its input restrictions ensure) without loss - for every strategy
    above, every threshold >= 1, every width mode of the index arrays, with and without
    flattening, every simple coder and every decode strategy. *)
Theorem lcpcomp_lossless : forall s cm k thr body sa,
  let text := body ++ [0%N] in
  1 <= thr -> bytes_ok body -> Forall (fun c => c <> 0%N) body -> small text -> is_sa text sa ->
  exists isa phi plcp mx lcp fs,
    isa_new cm sa = Some isa /\ phi_new cm sa = Some phi /\
    plcp_new cm text phi = Some (plcp, mx) /\ lcp_new cm sa plcp mx = Some lcp /\
    run s thr sa isa lcp plcp mx = Some fs /\
  exists depth flat, flatten depth (fac_sort fs) = Some flat /\
  forall gs, gs = fac_sort fs \/ gs = flat ->
  exists f, lzss_encode (simple_coder k) text gs = Some f /\
    forall fuel, depth <= fuel ->
      lcp_decompress (simple_coder k) fuel (compact_dec fuel) f = Some text /\
      lcp_decompress (simple_coder k) fuel (queue_dec fuel) f = Some text /\
      (forall scans, lcp_decompress (simple_coder k) fuel (scan_dec scans fuel) f = Some text) /\
      (forall pick lazy, picker_ok pick ->
         lcp_decompress (simple_coder k) fuel (multimap_dec pick lazy fuel) f = Some text).
Proof.
  intros s cm k thr body sa text Hthr Hb Hnz Hn Hs.
  assert (Ht : terminated text) by (exists body; auto).
  destruct (indexed cm text sa Ht Hs Hn) as (isa & phi & plcp & mx & lcp & E1 & E2 & E3 & E4 & IX).
  destruct (strategies_factorise s thr text sa isa lcp plcp mx Hthr Ht IX) as (fs & E5 & F).
  exists isa, phi, plcp, mx, lcp, fs. do 5 (split; auto). destruct F as (F1 & F2 & F3 & rank & F4).
  pose proof (fac_sort_perm fs) as PM.
  apply (lcpcomp_roundtrip k body (fac_sort fs) rank Hb Hnz).
  - exact Hn.
  - apply fac_sort_ok; auto. rewrite Forall_forall in *. intros f Hf. specialize (F1 f Hf). fold text. lia.
  - eapply spells_perm; eauto.
  - eapply descends_perm; eauto.
Qed.
Print Assumptions lcpcomp_lossless.

(** C40. LZSSLCPCompressor computes exactly the greedy parsing with longest previous
    occurrences, ... *)
Theorem lzss_lcp_greedy : forall thr text sa isa lcp plcp mx,
  1 <= thr -> terminated text -> index_of text sa isa lcp plcp mx ->
  exists fs, lzss_lcp (length sa) thr sa isa lcp = Some fs /\ greedy_parse text thr 0 fs.
Proof.
  intros thr text sa isa lcp plcp mx Hthr Ht (Hs & L1 & L2 & L3 & Hi & H0 & HL).
  unfold lzss_lcp. rewrite (len_sa' text sa Hs). apply (lzss_lcp_ok text sa isa lcp); auto; try lia.
  intros i X. apply (HL i X).
Qed.
Print Assumptions lzss_lcp_greedy.
(** ... and is lossless. *)
Theorem lzss_lcp_lossless : forall cm k thr body sa,
  let text := body ++ [0%N] in
  1 <= thr -> bytes_ok body -> Forall (fun c => c <> 0%N) body -> small text -> is_sa text sa ->
  exists isa phi plcp mx lcp fs f,
    isa_new cm sa = Some isa /\ phi_new cm sa = Some phi /\
    plcp_new cm text phi = Some (plcp, mx) /\ lcp_new cm sa plcp mx = Some lcp /\
    lzss_lcp (length sa) thr sa isa lcp = Some fs /\
    lzss_encode (simple_coder k) text fs = Some f /\
    forall fuel, length text < fuel -> lzss_decode (simple_coder k) fuel f = Some text.
Proof.
  intros cm k thr body sa text Hthr Hb Hnz Hn Hs.
  assert (Ht : terminated text) by (exists body; auto).
  destruct (indexed cm text sa Ht Hs Hn) as (isa & phi & plcp & mx & lcp & E1 & E2 & E3 & E4 & IX).
  destruct (lzss_lcp_greedy thr text sa isa lcp plcp mx Hthr Ht IX) as (fs & E5 & G).
  destruct (greedy_factors text thr Ht Hthr 0 fs G ltac:(lia)) as (F1 & F2 & F3).
  destruct (lzss_roundtrip k text fs) as (f & E6 & E7); auto.
  - apply Forall_app. split; auto. repeat constructor; unfold byte_ok; lia.
  - intros f Hf. rewrite Forall_forall in F3. apply F3. auto.
  - exists isa, phi, plcp, mx, lcp, fs, f. do 6 (split; auto).
Qed.
Print Assumptions lzss_lcp_lossless.

(** ** The heap strategy.  Each factor by itself is right ... *)
Definition factor_fits (text : list N) (thr : nat) (f : factor) : Prop :=
  thr <= f_len f /\ f_pos f + f_len f < length text /\ f_src f + f_len f < length text /\
  forall j, j < f_len f -> nth_error text (f_src f + j) = nth_error text (f_pos f + j).
Theorem heap_strategy_factors_fit : forall thr text sa isa lcp plcp mx,
  1 <= thr -> terminated text -> index_of text sa isa lcp plcp mx ->
  exists fs, max_heap_strategy thr sa isa lcp = Some fs /\ Forall (factor_fits text thr) fs.
Proof.
  intros thr text sa isa lcp plcp mx Hthr Ht (Hs & L1 & L2 & L3 & Hi & H0 & HL).
  assert (HL1 : forall i, 1 <= i < length text -> nth_error lcp i = Some (lcp_at text (nth (i - 1) sa 0) (nth i sa 0))) by (intros i X; apply (HL i X)).
  pose proof (len_sa' text sa Hs) as Ln. pose proof (np text Ht) as Hn. cbv zeta in Hn.
  pose proof (first_is_last text sa Hs Ht) as FL.
  assert (R0 : rk isa (length text - 1) = 0) by (rewrite <- FL; apply (rk_sa text sa isa Hi); lia).
  unfold max_heap_strategy. set (u := length (filter _ (tl lcp))). destruct (heap_new_ok lcp u) as (C & M & O).
  destruct (heap_fill_ok (length lcp) u thr (length lcp - 1) Hthr (heap_new lcp u) 1) as (h & -> & V & K & Mem & _); try lia.
  { split; auto. intros x Hx X. rewrite M in X. discriminate. }
  { unfold heap_new. cbn [h_size h_key]. unfold u. destruct lcp; simpl; lia. }
  { intros x _. apply M. }
  cbn [obind]. rewrite L2 in *.
  assert (Mem' : forall x, x < length text -> HeapProofs.mem u h x = (1 <=? x) && (thr <=? nth x lcp 0)).
  { intros x Hx. rewrite Mem by auto. rewrite M. auto. }
  pose proof (heap_bag (length text) u) as BQ.
  destruct (queue_loop_each text sa isa Hs Ht Hi heap_ops (h_ok (length text) u) (HeapProofs.mem u) hkey BQ thr Hthr (length sa) h) as (fs & E & F); auto.
  - intros x Hx X. destruct (rk_bound text sa isa Hs Hi x Hx) as (B & _). rewrite Mem' in X by auto. unfold hkey. rewrite K. cbn [heap_new h_key]. lia.
  - rewrite R0, Mem' by lia. auto.
  - destruct BQ as (_ & M2 & _). rewrite M2 by auto. rewrite Ln. apply filter_seq_le.
  - intros x Hx X. unfold hkey. rewrite K. cbn [heap_new h_key].
    pose proof (lcp_PL text sa isa Hs Ht Hi lcp HL1 x Hx) as Y. rewrite (nth_error_nth _ _ 0 Y). auto.
  - exists fs. split; auto. eapply Forall_impl; [|exact F]. intros f (A & B & Cc). destruct (PL_in text sa isa Hs Ht Hi _ A) as [B1 B2].
    unfold factor_fits. rewrite B. split; [lia|]. split; [lia|]. split; [lia|]. intros j Hj. apply (before_spells text sa isa); auto. lia.
Qed.
Print Assumptions heap_strategy_factors_fit.

(** ... but ArrayMaxHeap::remove can leave the heap unordered (PropMaxQueues.v), then a factor
    is taken that is not the longest one left, longer ones to its left are not shortened,
    and the factors overlap.  On "bbbabababababbabababaabaa" with threshold 3 (and all other
    parameters at will: 26 bytes need no particular width) two of the factors overlap,
    and the compressed stream announces 26 characters but describes 27 of them: every
    decode buffer is overrun. *)
Definition bad_text : list N := [98; 98; 98; 97; 98; 97; 98; 97; 98; 97; 98; 97; 98; 98; 97; 98; 97; 98; 97; 98; 97; 97; 98; 97; 97; 0]%N.
Definition bad_sa : list nat := [25; 24; 23; 20; 21; 18; 16; 14; 3; 5; 7; 9; 11; 22; 19; 17; 15; 13; 2; 4; 6; 8; 10; 12; 1; 0].
Definition described (es : list event) : nat :=
  fold_right (fun e s => match e with ELit _ => 1 | EFac _ l => N.to_nat l end + s) 0 es.
Theorem heap_strategy_overlap_refuted :
  exists isa phi plcp mx lcp fs, terminated bad_text /\ is_sa bad_text bad_sa /\
    isa_new CPlain bad_sa = Some isa /\ phi_new CPlain bad_sa = Some phi /\
    plcp_new CPlain bad_text phi = Some (plcp, mx) /\ lcp_new CPlain bad_sa plcp mx = Some lcp /\
    max_heap_strategy 3 bad_sa isa lcp = Some fs /\ ~ disjoint fs /\
    exists f es, lzss_encode (simple_coder BitC) bad_text (fac_sort fs) = Some f /\
      (forall fuel, 9 < fuel -> decode_events (simple_coder BitC) fuel f = Some (26%N, es)) /\ described es = 27.
Proof.
  do 6 eexists. split; [exists (removelast bad_text); split; [reflexivity|repeat constructor; discriminate]|].
  split; [apply sa_checked; vm_compute; reflexivity|].
  split; [vm_compute; reflexivity|]. split; [vm_compute; reflexivity|]. split; [vm_compute; reflexivity|]. split; [vm_compute; reflexivity|].
  split; [vm_compute; reflexivity|]. split.
  - assert (X : forall fs f g x, In f fs -> In g fs -> f <> g -> covers f x -> covers g x -> ~ disjoint fs).
    { intros fs f g x Hf Hg Hne Cf Cg D. destruct (ForallOrdPairs_In D f g Hf Hg) as [E|[E|E]]; auto.
      - apply (E x); auto.
      - apply (E x); auto. }
    apply (X _ (mk_f 13 15 6) (mk_f 18 21 4) 18); [cbn; tauto|cbn; tauto|discriminate|unfold covers; cbn; lia|unfold covers; cbn; lia].
  - eexists. eexists. split; [vm_compute; reflexivity|]. split.
    + intros fuel H. do 10 (destruct fuel as [|fuel]; [lia|]). vm_compute. reflexivity.
    + reflexivity.
Qed.
Print Assumptions heap_strategy_overlap_refuted.

(** ** A threshold of 0: ArraysComp leaves its bucket array, LZSSLCPCompressor does not end *)
Theorem arrays_threshold_0_refuted : forall sa isa lcp mx fs, arrays_comp 0 sa isa lcp mx <> Some fs.
Proof.
  intros sa isa lcp mx fs. unfold arrays_comp. replace (mx + 1 <=? 0) with false by lia.
  destruct (fill_cand _ _ _ _ _) as [cand|]; cbn [obind]; [|discriminate]. generalize (mx + 1 - 0). intros k.
  revert lcp cand fs. induction k as [|k IH]; intros lcp cand fs; cbn [arr_loop]; [discriminate|].
  destruct (nth_error cand k) as [col|]; cbn [obind]; [|discriminate].
  destruct (arr_col sa isa 0 (0 + k) col lcp cand) as [[[l c] f]|]; cbn [obind]; [|discriminate].
  specialize (IH l (upd c k [])). destruct (arr_loop sa isa 0 k l (upd c k [])) as [g|]; cbn [obind]; [|discriminate].
  exfalso. apply (IH g). auto.
Qed.
Print Assumptions arrays_threshold_0_refuted.
(** "ab" and its terminator: position 0 is replaced by nothing, again and again *)
Theorem lzss_lcp_threshold_0_refuted : is_sa [97; 98; 0]%N [2; 0; 1] /\
  forall fuel, lzss_lcp fuel 0 [2; 0; 1] [1; 2; 0] [0; 0; 0] = None.
Proof.
  split; [apply sa_checked; reflexivity|]. unfold lzss_lcp. induction fuel as [|fuel IH]; [reflexivity|].
  cbn [lzss_lcp_loop]. cbn [length Nat.add Nat.ltb Nat.leb nth_error obind Nat.max nsv_search nsv_walk fst snd Nat.min Nat.sub Nat.eqb].
  rewrite IH. reflexivity.
Qed.
Print Assumptions lzss_lcp_threshold_0_refuted.

(** ** Non-vacuity: "bananabanana" and all strategies *)
Definition ex_text : list N := [98; 97; 110; 97; 110; 97; 98; 97; 110; 97; 110; 97; 0]%N.
Definition ex_sa : list nat := [12; 11; 5; 9; 3; 7; 1; 6; 0; 10; 4; 8; 2].
Definition ex_index := do isa <- isa_new CPlain ex_sa; do phi <- phi_new CPlain ex_sa;
  do pm <- plcp_new CPlain ex_text phi; do lcp <- lcp_new CPlain ex_sa (fst pm) (snd pm);
  Some (isa, lcp, fst pm, snd pm).
Example ex_hypotheses : terminated ex_text /\ is_sa ex_text ex_sa /\ small ex_text.
Proof.
  split; [exists (removelast ex_text); split; [reflexivity|repeat constructor; discriminate]|].
  split; [apply sa_checked; vm_compute; reflexivity|]. unfold small. simpl. lia.
Qed.
Definition ex_run s thr := do x <- ex_index; let '(isa, lcp, plcp, mx) := x in run s thr ex_sa isa lcp plcp mx.
Example ex_arrays : ex_run Arrays 2 = Some [mk_f 0 6 6; mk_f 7 3 3].
Proof. vm_compute. reflexivity. Qed.
Example ex_max_lcp : ex_run MaxLCP 2 = Some [mk_f 0 6 6; mk_f 7 3 3] /\ ex_run Boost 2 = ex_run MaxLCP 2.
Proof. vm_compute. auto. Qed.
Example ex_others : ex_run Naive 2 <> Some [] /\ ex_run PLCPPeaks 2 <> Some [] /\ ex_run Bulldozer 2 = Some [].
Proof. split; [vm_compute; discriminate|]. split; [vm_compute; discriminate|reflexivity]. Qed.
Example ex_lzss_lcp : (do x <- ex_index; let '(isa, lcp, _, _) := x in lzss_lcp (length ex_sa) 2 ex_sa isa lcp)
  = Some [mk_f 3 1 3; mk_f 6 0 6].
Proof. vm_compute. reflexivity. Qed.

(** the strategy plcp on a text where taking the longest entry first shortens one entry, drops another and lets a new one
    emerge behind a factor: (5, 12, 2), the rest of the peak at 4 *)
Definition ex2_text : list N := [97; 97; 97; 98; 98; 98; 97; 98; 97; 98; 97; 98; 98; 97; 98; 0]%N.
Definition ex2_sa : list nat := [15; 0; 1; 13; 6; 8; 10; 2; 14; 12; 5; 7; 9; 11; 4; 3].
Example ex_plcp : terminated ex2_text /\ is_sa ex2_text ex2_sa /\ ex_run PLCP 2 <> Some [] /\
  (do isa <- isa_new CPlain ex2_sa; do phi <- phi_new CPlain ex2_sa; do pm <- plcp_new CPlain ex2_text phi;
   plcp_strategy 2 ex2_sa isa (fst pm)) = Some [mk_f 7 5 5; mk_f 2 10 3; mk_f 5 12 2].
Proof.
  split; [exists (removelast ex2_text); split; [reflexivity|repeat constructor; discriminate]|].
  split; [apply sa_checked; vm_compute; reflexivity|]. split; [vm_compute; discriminate|vm_compute; reflexivity].
Qed.
