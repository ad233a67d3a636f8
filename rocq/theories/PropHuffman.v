(** Property C24: the Huffman coder. *)
From Coq Require Import Permutation Sorted.
From Verif Require Import Base BitIO BitIOProofs IntCodes IntCodesProofs Coders CodersProofs LooseCoders
  ByteComp ByteCompProofs PropByteComp LZSS LZSSSpec LZSSProofs PropLZSS
  Huffman HuffmanSpec HuffTreeProofs HuffCodeProofs HuffmanProofs HuffOptProofs.
Local Open Scope nat_scope.

(** C24. Any sequence of encode calls (literals, bits, integers in ranges) whose literals are
    announced at construction decodes to the same values, whichever conforming implementation
    of the standard heap and sort algorithms is used. *)
Theorem huffman_calls_roundtrip : forall L is_heap, stdlib_ok L is_heap ->
  coder_ok_lits huff_lits (huff_coder L).
Proof.
  intros L ih HL. eapply loose_ok_lits; [exact (huff_coder_loose L ih HL)|apply call_ok_simple_ex].
Qed.
Print Assumptions huffman_calls_roundtrip.

(** C24. encode(huff): every text round-trips. *)
Theorem huffman_roundtrip : forall L is_heap, stdlib_ok L is_heap ->
  forall text, bytes_ok text -> huff_lits text ->
  exists f, litenc_compress (huff_coder L) text = Some f /\
    forall fuel, length text <= fuel -> litenc_decompress (huff_coder L) fuel f = Some text.
Proof. intros L ih HL. apply literal_encoder_roundtrip. exact (huffman_calls_roundtrip L ih HL). Qed.
Print Assumptions huffman_roundtrip.

Lemma map_to_effective_255 omap : In 255%N omap -> gen_map_to_effective omap = None.
Proof.
  intros Hin.
  unfold gen_map_to_effective.
  assert (Hstop : forall l, fold_left (fun o ic => do m <- o; hset m (N.to_nat (snd ic)) (Some (fst ic mod 256)))
    l (@None (list (option nat))) = None).
  { clear. induction l as [|x l IH]; auto. }
  assert (G : forall omap k m, length m = 255 -> In 255%N omap ->
    fold_left (fun o ic => do m <- o; hset m (N.to_nat (snd ic)) (Some (fst ic mod 256)))
      (combine (seq k (length omap)) omap) (Some m) = None).
  { clear - Hstop. induction omap as [|x omap IH]; intros k m Hm Hi; [destruct Hi|].
    cbn [length seq combine fold_left obind fst snd].
    destruct (N.eq_dec x 255) as [->|Hx].
    - unfold hset at 2. rewrite Hm. change (N.to_nat 255 <? 255) with false. apply Hstop.
    - destruct Hi as [Hi|Hi]; [contradiction|]. unfold hset at 2.
      destruct (N.to_nat x <? length m); [|apply Hstop]. apply IH; auto. rewrite upd_length. auto. }
  apply G; auto.
Qed.

Lemma table_map L is_heap C al t : stdlib_ok L is_heap -> al = gen_effective_alphabet C ->
  gen_huffmantable L C = Some t -> forall k, In k al -> In (N.of_nat k) (t_map t).
Proof.
  intros HL. unfold gen_huffmantable. intros Hal. rewrite <- Hal. clear Hal. intros Et k Ix.
  destruct (gen_codelengths L _ _) as [cl|]; [|discriminate]. cbn [obind] in Et.
  destruct (gen_numl _ _) as [numl|]; [|discriminate]. cbn [obind] in Et.
  destruct (gen_codewords _ _) as [cw|]; [|discriminate]. cbn [obind] in Et. apply Some_inj in Et. rewrite <- Et.
  cbn [t_map]. apply in_map_iff. apply (In_nth _ _ 0) in Ix. destruct Ix as (i & Hi & Ei).
  exists i. split; [rewrite Ei; reflexivity|].
  destruct (sort_ok _ _ HL (key cl) (seq 0 (length al))) as [P _].
  apply (Permutation_in _ P). apply in_seq. lia.
Qed.
Lemma init_255 L is_heap text al c : stdlib_ok L is_heap -> al = gen_effective_alphabet (count_literals text) ->
  length al = effective_alphabet_size (count_literals text) ->
  (forall i, In i al <-> In (N.of_nat i) text) -> 
  In 255%N text -> In c text -> c <> 255%N -> huff_init L text = None.
Proof.
  intros HL Hal Hae Hai H255 Hc Hne.
  unfold huff_init. destruct text as [|c0 text0]; [destruct Hc|]. set (tx := c0 :: text0) in *. clearbody tx.
  rewrite <- Hae.
  assert (Ix : In (N.to_nat 255) al) by (apply Hai; rewrite N2Nat.id; auto).
  assert (Iy : In (N.to_nat c) al) by (apply Hai; rewrite N2Nat.id; auto).
  destruct (Nat.eqb_spec (length al) 1) as [E1|_].
  { destruct al as [|a [|]]; try discriminate. destruct Ix as [Ix|[]], Iy as [Iy|[]].
    exfalso. apply Hne. apply N2Nat.inj. rewrite <- Iy. exact Ix. }
  destruct (gen_huffmantable L (count_literals tx)) as [t|] eqn:Et; [|reflexivity]. cbn [obind].
  rewrite map_to_effective_255; [reflexivity|].
  pose proof (table_map L is_heap _ al t HL Hal Et _ Ix) as H. rewrite N2Nat.id in H. exact H.
Qed.

(** C24. The restriction is necessary: when byte 255 occurs together with another byte, the
    constructor writes behind its array (and the model stops), whatever the library does. *)
Theorem huffman_255_refuted : forall L is_heap, stdlib_ok L is_heap ->
  forall text c, bytes_ok text -> (N.of_nat (length text) < 2 ^ 32)%N ->
  In 255%N text -> In c text -> c <> 255%N ->
  litenc_compress (huff_coder L) text = None.
Proof.
  intros L ih HL text c Hb Hlen H255 Hc Hne.
  unfold litenc_compress. cbn [huff_coder c_enc]. unfold huff_bits.
  rewrite (init_255 L ih text (alpha text) c HL (alpha_eq text)); auto.
  - symmetry. exact (effective_size text Hb Hlen).
  - exact (fun i => alpha_in text i Hb Hlen).
Qed.
Print Assumptions huffman_255_refuted.

(** C24. A client that announces no literals (NoLiterals) and then encodes one: assertion
    failure (e.g. the LZ78 and LZW compressors with this coder). *)
Theorem huffman_unannounced_refuted : forall L v cs, c_enc (huff_coder L) [] ((v, RLit) :: cs) = None.
Proof. reflexivity. Qed.
Print Assumptions huffman_unannounced_refuted.

(** C24. The literals are coded optimally: with at least two distinct literals, no prefix-free
    code spends fewer bits on the text than the part of the output behind the header. *)
Theorem huffman_optimal : forall L is_heap, stdlib_ok L is_heap ->
  forall text, huff_lits text -> (exists a b, In a text /\ In b text /\ a <> b) ->
  exists st header body,
    huff_init L text = Some (st, header) /\
    litenc_compress (huff_coder L) text = Some (bits_file (header ++ body)) /\
    forall code, prefix_free text code -> length body <= length (flat_map code text).
Proof.
  intros L ih HL text Ht Hd. destruct (body_opt_code L ih HL text Ht Hd) as (st & h & body & E1 & E2 & G).
  exists st, h, body. split; auto. split; auto.
  unfold litenc_compress. cbn [huff_coder c_enc]. unfold huff_bits. rewrite E1. cbn [obind]. rewrite E2. reflexivity.
Qed.
Print Assumptions huffman_optimal.

Lemma plain_sub text n fs : forall p, factors_ok p n fs ->
  incl (plain text n p fs) text /\ length (plain text n p fs) <= n - p.
Proof.
  assert (B : forall p q, incl (lits_between text p q) text /\ length (lits_between text p q) <= q - p).
  { intros p q. unfold lits_between. split; [|rewrite firstn_length; lia].
    intros x Hx. rewrite <- (firstn_skipn p text), <- (firstn_skipn (q - p) (skipn p text)).
    apply in_or_app. right. apply in_or_app. left. auto. }
  induction fs as [|f fs IH]; intros p Hok; cbn [plain]; cbn [factors_ok] in Hok; [apply B|].
  destruct Hok as (H1 & H2 & H3 & H4). destruct (IH _ H4) as [I1 I2]. destruct (B p (f_pos f)) as [B1 B2]. split.
  - apply incl_app; auto.
  - rewrite app_length. pose proof (factors_ok_len _ _ _ H4). lia.
Qed.

(** C24, C16. LZSS factorisations through the Huffman coder. *)
Theorem lzss_huffman_roundtrip : forall L is_heap, stdlib_ok L is_heap ->
  forall text fs,
  bytes_ok text -> (nn (length text) < 2 ^ 32)%N ->
  factors_ok 0 (length text) fs -> spells text fs ->
  (forall f, In f fs -> f_src f < f_pos f) -> Forall (fun c => (c < 255)%N) text ->
  exists f, lzss_encode (huff_coder L) text fs = Some f /\
    forall fuel, length text < fuel -> lzss_decode (huff_coder L) fuel f = Some text.
Proof.
  intros L ih HL text fs Hb Hn Hok Hs Hl H255.
  apply (lzss_roundtrip_any_coder huff_lits (simple_ex BitC)); auto.
  - exact (huff_coder_loose L ih HL).
  - apply call_ok_simple_ex.
  - destruct (plain_sub text (length text) fs 0 Hok) as [I1 I2]. split.
    + left. rewrite Forall_forall in *. auto.
    + eapply N.le_lt_trans; [|exact Hn]. clear - I2. lia.
Qed.
Print Assumptions lzss_huffman_roundtrip.

(** ** A conforming library: heaps are sorted lists *)
Fixpoint ins (k : nat -> nat) (x : nat) (l : list nat) : list nat :=
  match l with [] => [x] | y :: r => if k x <=? k y then x :: y :: r else y :: ins k x r end.
Definition isort (k : nat -> nat) (l : list nat) : list nat := fold_right (ins k) [] l.
Definition sorted_lib : stdlib :=
  mk_stdlib isort (fun _ l => match l with [] => [] | x :: r => r ++ [x] end) isort isort.
Lemma ins_perm k x l : Permutation (x :: l) (ins k x l).
Proof.
  induction l as [|y l IH]; cbn [ins]; auto. destruct (k x <=? k y); auto.
  rewrite <- IH. apply perm_swap.
Qed.
Lemma isort_perm k l : Permutation l (isort k l).
Proof. induction l as [|x l IH]; cbn [isort fold_right]; auto. rewrite <- ins_perm. constructor. exact IH. Qed.
Lemma ins_sorted k x l : StronglySorted (fun a b => k a <= k b) l -> StronglySorted (fun a b => k a <= k b) (ins k x l).
Proof.
  induction l as [|y l IH]; intros H; cbn [ins]; [repeat constructor|].
  inversion H as [|? ? S1 S2]; subst. destruct (Nat.leb_spec (k x) (k y)).
  - constructor; auto. constructor; auto. revert S2. apply Forall_impl. intros; lia.
  - constructor; auto. apply Forall_forall. intros z Hz. apply (Permutation_in _ (Permutation_sym (ins_perm k x l))) in Hz.
    destruct Hz as [<-|Hz]; [lia|]. rewrite Forall_forall in S2. auto.
Qed.
Lemma isort_sorted k l : StronglySorted (fun a b => k a <= k b) (isort k l).
Proof. induction l; cbn [isort fold_right]; [constructor|]. apply ins_sorted. exact IHl. Qed.
Lemma sorted_lib_ok : stdlib_ok sorted_lib (fun k l => StronglySorted (fun a b => k a <= k b) l).
Proof.
  split; cbn [sorted_lib make_heap pop_heap push_heap std_sort].
  - intros k k' l He H. induction H as [|x l S IH F]; constructor.
    + apply IH. intros; apply He; right; auto.
    + apply Forall_forall. intros y Hy. rewrite Forall_forall in F. rewrite <- !He by (cbn; auto). auto.
  - intros; split; [apply isort_perm|apply isort_sorted].
  - intros k [|x l] Hn H; [congruence|]. inversion H as [|? ? S F]; subst. exists l, x.
    split; auto. split; [apply Permutation_cons_append|]. split; auto.
    intros y [<-|Hy]; auto. rewrite Forall_forall in F. auto.
  - intros; split; [apply isort_perm|apply isort_sorted].
  - intros; split; [apply isort_perm|apply isort_sorted].
Qed.

(** "abracadabra": the round trip by computation *)
Definition abra : list N := [97; 98; 114; 97; 99; 97; 100; 97; 98; 114; 97]%N.
Example huff_ex_meets : bytes_ok abra /\ huff_lits abra /\ (exists a b, In a abra /\ In b abra /\ a <> b).
Proof.
  split; [repeat constructor|]. split; [split; [left; repeat constructor|reflexivity]|].
  exists 97%N, 98%N. split; [left; auto|]. split; [right; left; auto|discriminate].
Qed.
Example huff_ex_roundtrip : exists f, litenc_compress (huff_coder sorted_lib) abra = Some f /\
  litenc_decompress (huff_coder sorted_lib) 20 f = Some abra /\ length f = 14.
Proof. eexists. split; [vm_compute; reflexivity|]. split; vm_compute; reflexivity. Qed.
Example huff_ex_255 : litenc_compress (huff_coder sorted_lib) [255; 255]%N <> None /\
                      litenc_compress (huff_coder sorted_lib) [255; 1]%N = None.
Proof. split; vm_compute; [discriminate|reflexivity]. Qed.
Example huff_ex_lzss :
  (do f <- lzss_encode (huff_coder sorted_lib) abra [mk_f 7 0 4];
   lzss_decode (huff_coder sorted_lib) 20 f) = Some abra.
Proof. vm_compute. reflexivity. Qed.
