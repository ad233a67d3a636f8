(** Property C59: BinarySuffixTree builds the suffix tree in arrays, and the compressors on top of it
    (LFS with BSTStrategy, LFS2BST) are lossless. *)
From Coq Require Import Permutation.
From Verif Require Import Base BitIO BitIOProofs IntCodes IntCodesProofs Coders CodersProofs
  Huffman HuffmanSpec HuffmanProofs PropHuffman BitCoders Strategies Lfs LfsSpec LfsProofs LfsEsaProofs PropLfs
  LfsTree LfsTreeSpec LfsTreeProofs PropLfsTree Lfs2 Lfs2Proofs Lfs2EncProofs PropLfs2
  Ukk UkkSpec UkkProofs UkkLoopProofs UkkTreeProofs UkkVisitProofs PropUkk Bst BstSpec BstProofs BstLoopProofs BstVisitProofs.
Local Open Scope nat_scope.

(** C59. For every text of at least two characters the construction runs to the end without leaving
    its arrays, and they then hold a suffix tree: the one that SuffixTree builds. *)
Theorem bst_correct : forall text, 2 <= length text -> exists nodes b num,
  b_tree text = Some b /\ suffix_tree text = Some nodes /\ is_suffix_tree text nodes /\ holds nodes b num /\ b_new b = length nodes + 1.
Proof.
  intros text Hn. destruct (tree_sim text Hn) as (nodes & suf & p & d & b & E & I & Hs & H0 & Hm & B & R).
  destruct (suffix_tree_correct text) as (nodes' & E' & T & _). assert (nodes' = nodes) as -> by congruence.
  exists nodes, (b_shrink b), idx. split; auto. split; auto. split; auto. split.
  2:{ cbn [b_shrink b_new]. rewrite (r_new _ _ _ R). auto. }
  split; auto. split; [apply idx_inj|]. intros x v Hx.
  destruct (view text suf nodes p d I H0 Hm b R x v Hx) as (V1 & V2 & V3 & f & F1 & F2 & F3 & F4).
  split; auto. split; auto. split; auto. exists f. split; auto. split.
  - destruct (u_leaf v) as [i|].
    + destruct (F4 i eq_refl) as [_ ->]. split; [discriminate|auto].
    + destruct (F3 eq_refl) as [_ F0]. split; [lia|congruence].
  - assert (K : forall k y, In (k, y) (u_kids v) -> y <> 0 /\ exists w, nth_error nodes y = Some w).
    { intros k y Hy. destruct (t_kid _ _ _ _ _ _ I _ _ _ _ Hx Hy) as (_ & Y0 & w & W & _). eauto. }
    clear F1 F3 F4. revert f F2 K. unfold kl. induction (u_kids v) as [|[k y] l IH]; intros f F2 K; cbn [map snd seg] in *.
    + subst f. constructor.
    + destruct F2 as [-> F2]. destruct (K k y (or_introl eq_refl)) as (Y0 & w & W). econstructor.
      * rewrite idx_pos by auto. lia.
      * eapply next_of; eauto.
      * apply IH; auto. intros k' y' Hy. apply (K k' y'). right. auto.
Qed.
Print Assumptions bst_correct.

(** C59. The strategies see in the arrays the tree that they would see in a SuffixTree, and it has
    the properties they need. *)
Theorem bst_tree_correct : forall text, 2 <= length text ->
  exists T, bst_tree text = Some T /\ st_tree (fun _ l => l) text = Some T /\ (terminated text -> tree_of text T).
Proof.
  intros text Hn. destruct (bst_tree_eq text Hn) as (T & E1 & E2). exists T. split; auto. split; auto. intros Ht.
  destruct (st_tree_correct (fun _ l => l) text) as (T' & E & H & _); auto. congruence.
Qed.
Print Assumptions bst_tree_correct.

(** LFSCompressor with BSTStrategy, from the text *)
Definition bst_strategy (mn : nat) (text : list N) : option (list rule * list nts) :=
  do T <- bst_tree text; bst_rules T mn (seq 0 (length T)) (length text).
(** C59, end to end *)
Theorem lfs_bst_lossless : forall cl Pl k text mn,
  bcoder_ok Pl cl -> Pl text -> bytes_ok text -> (N.of_nat (length text) < 2 ^ 31)%N -> terminated text -> 1 <= mn ->
  exists f, lfs_compress cl (simple_b k) (bst_strategy mn) text = Some f /\ bytes_ok f /\
    forall fuel, 2 * length text < fuel -> lfs_decode cl (simple_b k) fuel f = Some text.
Proof.
  intros cl Pl k text mn Hcl HP Hb Hn Ht Hm. apply (lfs_rules_lossless cl Pl k text mn); auto; [lia|]. intros L.
  destruct (bst_tree_correct text) as (T & T1 & _ & T2); [lia|]. unfold bst_strategy. rewrite T1. cbn [obind].
  apply lfs_bst_rules; auto. apply Permutation_refl.
Qed.
Print Assumptions lfs_bst_lossless.

(** LFS2BSTCompressor from the text (:133: the tree is only built for a text of at least min_lrf characters) *)
Definition lfs2bst_text (cl cn : bcoder) (mn : nat) (text : list N) : option (list N) :=
  do T <- (if mn <=? length text then bst_tree text else Some []);
  lfs2bst_compress cl cn T mn (seq 0 (length T)) text.
Theorem lfs2bst_text_lossless : forall cl k text mn,
  bcoder_ok (fun _ => True) cl -> bytes_ok text -> (N.of_nat (length text) < 2 ^ 31)%N -> terminated text -> 1 <= mn ->
  2 <= length text \/ length text < mn -> lossless2 cl (simple_b k) text (lfs2bst_text cl (simple_b k) mn text).
Proof.
  intros cl k text mn Hcl Hb Hn Ht Hm H2. unfold lfs2bst_text.
  assert (Hn' : (N.of_nat (length text) < 2 ^ 32)%N) by lia.
  destruct (Nat.leb_spec mn (length text)) as [L|L].
  - destruct (bst_tree_correct text) as (T & T1 & _ & T2); [lia|]. rewrite T1. cbn [obind]. apply lfs2bst_lossless; auto. apply Permutation_refl.
  - cbn [obind length seq]. destruct (st_tree_correct (fun _ l => l) text) as (T & _ & HT & _); auto.
    pose proof (lfs2bst_lossless cl k text T (seq 0 (length T)) mn Hcl Hb Hn' HT (Permutation_refl _) Hm) as Q.
    unfold lfs2bst_compress, lfs2bst_layers in *. cbv zeta in *. replace (mn <=? length text) with false in * by lia. exact Q.
Qed.
Print Assumptions lfs2bst_text_lossless.
(** C59, with the default Huffman coder *)
Theorem lfs2bst_text_huffman_lossless : forall L is_heap k text mn,
  stdlib_ok L is_heap -> Forall (fun c => (c < 255)%N) text -> (N.of_nat (length text) < 2 ^ 31)%N -> terminated text -> 1 <= mn ->
  2 <= length text \/ length text < mn -> lossless2 (huff_b L) (simple_b k) text (lfs2bst_text (huff_b L) (simple_b k) mn text).
Proof.
  intros L ih k text mn HL Hb Hn Ht Hm H2. unfold lfs2bst_text.
  destruct (Nat.leb_spec mn (length text)) as [Q|Q].
  - destruct (bst_tree_correct text) as (T & T1 & _ & T2); [lia|]. rewrite T1. cbn [obind].
    apply (lfs2_huffman_lossless L ih k text T _ mn false HL Hb Hn (T2 Ht) (Permutation_refl _) Hm).
  - cbn [obind length seq]. destruct (st_tree_correct (fun _ l => l) text) as (T & _ & HT & _); auto.
    destruct (lfs2_huffman_lossless L ih k text T (seq 0 (length T)) mn false HL Hb Hn HT (Permutation_refl _) Hm) as [_ R].
    unfold lfs2bst_compress, lfs2bst_layers in *. cbv zeta in *. replace (mn <=? length text) with false in * by lia. exact R.
Qed.
Print Assumptions lfs2bst_text_huffman_lossless.

(** C59. For a text of one character the construction writes behind its arrays (at most 2n entries, but three nodes);
    LFS2BST with min_lrf <= 1 reaches that on the empty input (the text is the sentinel). *)
Theorem bst_short_refuted : forall c cl cn, bst_tree [c] = None /\ b_tree [] = None /\ lfs2bst_text cl cn 1 [c] = None.
Proof.
  intros c cl cn. assert (E : bst_tree [c] = None).
  { unfold bst_tree, b_tree, b_init, create_node, b_feed, b_add_char. vm_compute. reflexivity. }
  split; [exact E|]. split; reflexivity.
Qed.
Print Assumptions bst_short_refuted.

(** ** Examples *)
Example banana_bst : (do b <- b_tree banana; Some (b_first b, b_next b)) =
  Some ([2; 0; 0; 0; 0; 3; 0; 4; 0; 5; 0; 0], [0; 0; 9; 6; 8; 10; 0; 11; 0; 7; 0; 0]).
Proof. vm_compute. reflexivity. Qed.
Example banana_rules : bst_strategy 2 banana <> None /\ bst_tree banana = st_tree (fun _ l => l) banana.
Proof. split; vm_compute; [discriminate|reflexivity]. Qed.
Example banana_lfs2bst : (do f <- lfs2bst_text (simple_b BitC) (simple_b Gamma) 2 banana; lfs2_decode (simple_b BitC) (simple_b Gamma) 8 f) = Some banana /\
  terminated banana /\ bytes_ok banana.
Proof. split; [vm_compute; reflexivity|]. split; apply banana_ok. Qed.
