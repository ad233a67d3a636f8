(** Property C42: the LFS compressor (longest-first substitution). *)
From Coq Require Import Permutation Sorted.
From Verif Require Import Base BitIO BitIOProofs IntCodes IntCodesProofs Coders CodersProofs LooseCoders
  Huffman HuffmanSpec HuffmanProofs PropHuffman BitCoders Strategies StrategySpec SASpec SAComp SACompProofs PropSAComp PropStrategies
  Lfs LfsSpec LfsProofs LfsEsaProofs.
Local Open Scope nat_scope.

(** C42. Whatever strategy delivers the rules: if they are nonempty pieces of the text, longest
    first, and the uses are ordered, disjoint and spell their rule, then what the encoder writes is
    decoded to the text - for any coders that work on a shared bit stream. *)
Theorem lfs_encoding_roundtrip : forall cl cn Pl Pn text (d : list rule) (ns : list nts),
  bcoder_ok Pl cl -> bcoder_ok Pn cn -> bytes_ok text -> (N.of_nat (length text) < 2 ^ 32)%N ->
  Pl text -> Pn [] -> (N.of_nat (length d) < 2 ^ 32)%N -> rules_ok text d -> uses_ok text d 0 ns ->
  exists f, lfs_encode cl cn text d ns = Some f /\ bytes_ok f /\
    forall fuel, length text + length d < fuel -> lfs_decode cl cn fuel f = Some text.
Proof. exact lfs_encode_ok. Qed.
Print Assumptions lfs_encoding_roundtrip.

(** C42. The coders that can be chosen: BitCoder, ASCIICoder, HuffmanCoder for the literals and the
    universal coders for the lengths. *)
Theorem lfs_coders : (forall k, bcoder_ok (fun _ => True) (simple_b k)) /\
  (forall L is_heap, stdlib_ok L is_heap -> bcoder_ok huff_lits (huff_b L)).
Proof. split; [exact simple_b_ok|exact huff_b_ok]. Qed.
Print Assumptions lfs_coders.

(** how often rule [sym] is used *)
Definition times_used (sym : nat) (ns : list nts) : nat := length (filter (fun u => snd (fst u) =? sym) ns).

(** C42. The rules of the suffix array strategy are valid, for every text and its suffix and LCP
    array; each rule has at least two characters and replaces at least two occurrences. *)
Theorem lfs_esa_rules : forall text sa isa lcp plcp mx, index_of text sa isa lcp plcp mx ->
  exists d ns, esa_rules sa lcp (length text) = Some (d, ns) /\ rules_ok text d /\ uses_ok text d 0 ns /\
    length d <= length text /\ Forall (fun r => 2 <= snd r) d /\
    forall sym, sym < length d -> 2 <= times_used sym ns.
Proof.
  intros text sa isa lcp plcp mx (Hs & L1 & L2 & L3 & Hi & H0 & HL).
  apply (esa_ok text sa lcp Hs L2); auto. intros i X. apply (HL i X).
Qed.
Print Assumptions lfs_esa_rules.

(** C42. Among the free occurrences of a rule as many as possible are replaced: no set of
    pairwise non-overlapping occurrences is larger than the selected one. *)
Definition spaced (len : nat) (l : list nat) : Prop := ForallOrdPairs (fun a b => a + len <= b) l.
Lemma greedy_optimal len : 1 <= len -> forall l free, StronglySorted le l ->
  forall other, spaced len other -> Forall (fun x => In x l /\ free <= x) other ->
  length other <= length (greedy len free l).
Proof.
  intros Hlen. induction l as [|c l IH]; intros free Hl other Ho Hin.
  - destruct other as [|x o]; [cbn; lia|]. inversion Hin as [|? ? [[] _] _].
  - inversion Hl as [|? ? S1 S2]; subst. rewrite Forall_forall in S2. cbn [greedy].
    destruct (Nat.leb_spec free c) as [L|L].
    + destruct other as [|s other]; [cbn; lia|]. cbn [length]. apply le_n_S.
      inversion Ho as [|? ? O1 O2]; subst. inversion Hin as [|? ? [I1 I2] I3]; subst.
      assert (c <= s) by (destruct I1 as [<-|I1]; [lia|apply S2; auto]).
      apply IH; auto. apply Forall_forall. intros x Hx. rewrite Forall_forall in O1, I3.
      specialize (O1 x Hx). destruct (I3 x Hx) as [[E|Hx'] _]; [lia|]. split; auto. lia.
    + apply IH; auto. revert Hin. apply Forall_impl. intros x [[E|Hx] Hf]; [lia|auto].
Qed.
Lemma ins_sorted x l : StronglySorted le l -> StronglySorted le (ins x l).
Proof.
  induction 1 as [|y l Hl IH Hy]; cbn [ins]; [repeat constructor|]. rewrite Forall_forall in Hy.
  destruct (Nat.leb_spec x y).
  - constructor; [constructor; auto; apply Forall_forall; auto|]. constructor; auto. apply Forall_forall. intros z Hz. specialize (Hy z Hz). lia.
  - constructor; auto. apply Forall_forall. intros z Hz. apply (Permutation_in _ (Permutation_sym (ins_perm x l))) in Hz.
    destruct Hz as [<-|Hz]; [lia|auto].
Qed.
Lemma isort_sorted l : StronglySorted le (isort l).
Proof. induction l; cbn [isort]; [constructor|]. apply ins_sorted; auto. Qed.
Theorem lfs_selection_optimal : forall len ps, 1 <= len ->
  spaced len (select_positions len ps) /\ incl (select_positions len ps) ps /\
  forall other, spaced len other -> incl other ps -> length other <= length (select_positions len ps).
Proof.
  intros len ps Hlen. split; [apply greedy_spaced|]. split.
  - intros x Hx. apply greedy_in in Hx. apply (Permutation_in _ (Permutation_sym (isort_perm ps))). tauto.
  - intros other Ho Hin. apply greedy_optimal; auto; [apply isort_sorted|].
    apply Forall_forall. intros x Hx. split; [|lia]. apply (Permutation_in _ (isort_perm ps)). auto.
Qed.
Print Assumptions lfs_selection_optimal.

(** the text data structure the strategy asks for: its suffix array is [sa] *)
Definition esa_strategy (cm : cmode) (sa : list nat) (text : list N) : option (list rule * list nts) :=
  do phi <- phi_new cm sa;
  do (plcp, mx) <- plcp_new cm text phi;
  do lcp <- lcp_new cm sa plcp mx;
  esa_rules sa lcp (length text).

(** C42, end to end: lfs_comp(esa) with BitCoder or ASCIICoder for the literals is lossless on
    every text (not containing NUL and followed by a NUL, as its input restrictions ensure);
    with the Huffman coder if the text does not contain the byte 255. *)
Theorem lfs_esa_lossless : forall cl Pl k cm body sa,
  let text := body ++ [0%N] in
  bcoder_ok Pl cl -> Pl text -> bytes_ok body -> Forall (fun c => c <> 0%N) body -> small text -> is_sa text sa ->
  exists f, lfs_compress cl (simple_b k) (esa_strategy cm sa) text = Some f /\ bytes_ok f /\
    forall fuel, 2 * length text < fuel -> lfs_decode cl (simple_b k) fuel f = Some text.
Proof.
  intros cl Pl k cm body sa text Hcl HP Hb Hnz Hn Hs.
  assert (Ht : terminated text) by (exists body; auto).
  assert (Hbt : bytes_ok text) by (apply Forall_app; split; auto; repeat constructor; unfold byte_ok; lia).
  destruct (indexed cm text sa Ht Hs Hn) as (isa & phi & plcp & mx & lcp & E1 & E2 & E3 & E4 & IX).
  destruct (lfs_esa_rules text sa isa lcp plcp mx IX) as (d & ns & E5 & R1 & R2 & R3 & _).
  unfold lfs_compress.
  assert (G : exists d ns, (if 1 <? length text then esa_strategy cm sa text else Some ([], [])) = Some (d, ns) /\
    rules_ok text d /\ uses_ok text d 0 ns /\ length d <= length text).
  { destruct (1 <? length text).
    - unfold esa_strategy. rewrite E2. cbn [obind]. rewrite E3. cbn [obind]. rewrite E4. cbn [obind].
      exists d, ns. auto.
    - exists [], []. split; auto. split; [split; constructor|]. split; [exact I|cbn; lia]. }
  clear d ns E5 R1 R2 R3. destruct G as (d & ns & -> & R1 & R2 & R3). cbn [obind].
  unfold small in Hn.
  destruct (lfs_encode_ok cl (simple_b k) Pl (fun _ => True) text d ns) as (f & F1 & F2 & F3); auto.
  - apply simple_b_ok.
  - lia.
  - exists f. split; auto. split; auto. intros fuel Hf. apply F3. lia.
Qed.
Print Assumptions lfs_esa_lossless.

Corollary lfs_esa_huffman_lossless : forall L is_heap k cm body sa,
  let text := body ++ [0%N] in
  stdlib_ok L is_heap -> bytes_ok body -> Forall (fun c => c <> 0%N /\ c <> 255%N) body -> small text -> is_sa text sa ->
  exists f, lfs_compress (huff_b L) (simple_b k) (esa_strategy cm sa) text = Some f /\ bytes_ok f /\
    forall fuel, 2 * length text < fuel -> lfs_decode (huff_b L) (simple_b k) fuel f = Some text.
Proof.
  intros L ih k cm body sa text HL Hb Hnz Hn Hs. subst text.
  apply (lfs_esa_lossless (huff_b L) huff_lits k cm body sa); auto.
  - exact (huff_b_ok L ih HL).
  - split.
    + left. apply Forall_app. split; [|repeat constructor; lia]. rewrite Forall_forall in *. intros c Hc.
      unfold bytes_ok in Hb. rewrite Forall_forall in Hb. specialize (Hb c Hc). specialize (Hnz c Hc). unfold byte_ok in Hb. lia.
    + unfold small in Hn. lia.
  - revert Hnz. apply Forall_impl. tauto.
Qed.
Print Assumptions lfs_esa_huffman_lossless.

(** C42. With the (default) Huffman coder any text that contains the byte 255 makes the
    constructor of the coder write outside its table.  255 is also the escape byte that stands
    for a NUL of the input. *)
Theorem lfs_huffman_255_refuted : forall L is_heap k rules body,
  let text := body ++ [0%N] in
  stdlib_ok L is_heap -> bytes_ok body -> small text -> In 255%N body ->
  lfs_compress (huff_b L) (simple_b k) rules text = None.
Proof.
  intros L ih k rules body text HL Hb Hn Hin. unfold lfs_compress.
  destruct (if 1 <? length text then rules text else Some ([], [])) as [[d ns]|]; [|reflexivity]. cbn [obind].
  assert (Hbt : bytes_ok text) by (apply Forall_app; split; auto; repeat constructor; unfold byte_ok; lia).
  assert (Hlen : (N.of_nat (length text) < 2 ^ 32)%N) by (unfold small in Hn; lia).
  unfold lfs_encode. cbn [huff_b bc_init].
  rewrite (init_255 L ih text (alpha text) 0%N HL (alpha_eq text)); auto.
  - symmetry. exact (effective_size text Hbt Hlen).
  - exact (fun i => alpha_in text i Hbt Hlen).
  - apply in_or_app. left. auto.
  - apply in_or_app. right. left. auto.
  - discriminate.
Qed.
Print Assumptions lfs_huffman_255_refuted.

(** ** Example: "abcabcxbc" with its suffix array: the rule "abc" (twice), then "bc" has only one
    free occurrence left *)
Definition lfs_text : list N := [97; 98; 99; 97; 98; 99; 120; 98; 99; 0]%N.
Definition lfs_sa : list nat := [9; 0; 3; 7; 1; 4; 8; 2; 5; 6].
Example lfs_ex_sa : lfs_sa = [9; 0; 3; 7; 1; 4; 8; 2; 5; 6] /\ is_sa lfs_text lfs_sa.
Proof.
  split; [reflexivity|]. split.
  - apply NoDup_Permutation.
    + repeat constructor; cbn; intuition discriminate.
    + apply seq_NoDup.
    + intros x. rewrite in_seq. cbn. intuition lia.
  - intros i j H. cbn [lfs_text length] in H.
    assert (A : forallb (fun i => forallb (fun j => implb (i <? j) (suf_lt lfs_text (nth i lfs_sa 0) (nth j lfs_sa 0))) (seq 0 10)) (seq 0 10) = true)
      by (vm_compute; reflexivity).
    rewrite forallb_forall in A. specialize (A i ltac:(apply in_seq; lia)). rewrite forallb_forall in A.
    specialize (A j ltac:(apply in_seq; lia)). replace (i <? j) with true in A by lia. exact A.
Qed.
Example lfs_ex_rules : esa_strategy CPlain lfs_sa lfs_text = Some ([(3, 3)], [(0, 0, 3); (3, 0, 3)]).
Proof. vm_compute. reflexivity. Qed.
Example lfs_ex_roundtrip : exists f, lfs_compress (huff_b sorted_lib) (simple_b Gamma) (esa_strategy CPlain lfs_sa) lfs_text = Some f /\
  lfs_decode (huff_b sorted_lib) (simple_b Gamma) 30 f = Some lfs_text.
Proof. eexists. split; [vm_compute; reflexivity|]. vm_compute. reflexivity. Qed.
