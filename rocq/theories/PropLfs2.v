(** Property C57: the compressors LFS2 and LFS2BST. *)
From Coq Require Import Permutation.
From Verif Require Import Base BitIO BitIOProofs IntCodes IntCodesProofs Coders CodersProofs
  Huffman HuffmanSpec HuffmanProofs PropHuffman BitCoders Strategies Lfs LfsSpec LfsProofs LfsEsaProofs
  LfsTree LfsTreeSpec LfsTreeProofs PropLfsTree Lfs2 Lfs2Proofs Lfs2EncProofs.
Local Open Scope nat_scope.

(** compressing succeeds, and decompressing the file yields the text, however long the decoder's
    loops may run *)
Definition lossless2 (cl cn : bcoder) (text : list N) (file : option (list N)) : Prop :=
  exists f, file = Some f /\ bytes_ok f /\ forall fuel, length text < fuel -> lfs2_decode cl cn fuel f = Some text.

(** C57. For every text, every suffix tree of it visited in any order, every min_lrf of at
    least 1, both values of the option exact and all coders that are right for any announced
    literals: an LFS2 object that is used for the first time is lossless, if the text has a
    character besides NUL or is shorter than min_lrf. *)
Theorem lfs2_lossless : forall cl k text T order mn exact,
  bcoder_ok (fun _ => True) cl -> bytes_ok text -> (N.of_nat (length text) < 2 ^ 32)%N ->
  tree_of text T -> traversal T order -> 1 <= mn -> (exists c, In c text /\ c <> 0%N) \/ length text < mn ->
  lossless2 cl (simple_b k) text (lfs2_compress cl (simple_b k) T exact mn order text).
Proof.
  intros cl k text T order mn exact Hcl Hb Hn [W HW] P H Hz.
  destruct (lfs2_layers_ok text mn H T W HW exact order P Hz) as (y & cur & dead & ns & E & I).
  destruct (lfs2_encode_ok cl (simple_b k) _ (fun _ => True) text mn cur y dead ns Hcl (simple_b_ok k) Hb Hn H I Logic.I Logic.I) as (f & F1 & F2 & F3).
  exists f. unfold lfs2_compress. rewrite E. cbn [obind]. auto.
Qed.
Print Assumptions lfs2_lossless.
Theorem lfs2bst_lossless : forall cl k text T order mn,
  bcoder_ok (fun _ => True) cl -> bytes_ok text -> (N.of_nat (length text) < 2 ^ 32)%N ->
  tree_of text T -> traversal T order -> 1 <= mn ->
  lossless2 cl (simple_b k) text (lfs2bst_compress cl (simple_b k) T mn order text).
Proof.
  intros cl k text T order mn Hcl Hb Hn [W HW] P H.
  destruct (lfs2bst_layers_ok text mn H T W HW order P) as (y & cur & dead & ns & E & I).
  destruct (lfs2_encode_ok cl (simple_b k) _ (fun _ => True) text mn cur y dead ns Hcl (simple_b_ok k) Hb Hn H I Logic.I Logic.I) as (f & F1 & F2 & F3).
  exists f. unfold lfs2bst_compress. rewrite E. cbn [obind]. auto.
Qed.
Print Assumptions lfs2bst_lossless.

(** C57, with the default Huffman coder for the literals: texts without the byte 255 and of
    fewer than 2^31 characters (a literal may be announced once for the text and once for a rule) *)
Lemma layers_huff text mn cur y dead ns : 1 <= mn -> linv text mn cur y dead ns -> Forall (fun c => (c < 255)%N) text ->
  (N.of_nat (length text) < 2 ^ 31)%N -> huff_lits (announced text y).
Proof.
  intros Hm I H Hn. split.
  - left. apply Forall_forall. intros c Hc. apply announced_sub in Hc. rewrite Forall_forall in H. auto.
  - pose proof (announced_len text mn cur y dead ns Hm I). lia.
Qed.
Theorem lfs2_huffman_lossless : forall L is_heap k text T order mn exact,
  stdlib_ok L is_heap -> Forall (fun c => (c < 255)%N) text -> (N.of_nat (length text) < 2 ^ 31)%N ->
  tree_of text T -> traversal T order -> 1 <= mn ->
  ((exists c, In c text /\ c <> 0%N) \/ length text < mn ->
   lossless2 (huff_b L) (simple_b k) text (lfs2_compress (huff_b L) (simple_b k) T exact mn order text)) /\
  lossless2 (huff_b L) (simple_b k) text (lfs2bst_compress (huff_b L) (simple_b k) T mn order text).
Proof.
  intros L ih k text T order mn exact HL Hb Hn [W HW] P H.
  assert (Hb' : bytes_ok text) by (revert Hb; apply Forall_impl; unfold byte_ok; lia).
  assert (Hn' : (N.of_nat (length text) < 2 ^ 32)%N) by lia.
  split; [intros Hz; destruct (lfs2_layers_ok text mn H T W HW exact order P Hz) as (y & cur & dead & ns & E & I)
         |destruct (lfs2bst_layers_ok text mn H T W HW order P) as (y & cur & dead & ns & E & I)];
  destruct (lfs2_encode_ok (huff_b L) (simple_b k) _ (fun _ => True) text mn cur y dead ns (huff_b_ok L ih HL) (simple_b_ok k) Hb' Hn' H I
    (layers_huff text mn cur y dead ns H I Hb Hn) Logic.I) as (f & F1 & F2 & F3);
  exists f; unfold lfs2_compress, lfs2bst_compress; rewrite E; cbn [obind]; auto.
Qed.
Print Assumptions lfs2_huffman_lossless.

(** C57. With the Huffman coder both compressors fail on every text that contains the byte 255. *)
Theorem lfs2_huffman_255_refuted : forall L is_heap k body T order mn exact,
  let text := body ++ [0%N] in
  stdlib_ok L is_heap -> bytes_ok body -> (N.of_nat (length text) < 2 ^ 31)%N ->
  tree_of text T -> traversal T order -> 1 <= mn -> In 255%N body ->
  lfs2_compress (huff_b L) (simple_b k) T exact mn order text = None /\
  lfs2bst_compress (huff_b L) (simple_b k) T mn order text = None.
Proof.
  intros L ih k body T order mn exact text HL Hb Hn [W HW] P H H255.
  assert (Hn' : (N.of_nat (length text) < 2 ^ 32)%N) by lia.
  assert (Hbt : bytes_ok text) by (apply Forall_app; split; auto; repeat constructor; unfold byte_ok; lia).
  assert (G : forall cur y dead ns, linv text mn cur y dead ns -> lfs2_encode (huff_b L) (simple_b k) text y = None).
  { intros cur y dead ns I. pose proof (announced_len text mn cur y dead ns H I) as La.
    assert (Hba : bytes_ok (announced text y)).
    { apply Forall_forall. intros c Hc. apply announced_sub in Hc. unfold bytes_ok in Hbt. rewrite Forall_forall in Hbt. auto. }
    assert (Hla : (N.of_nat (length (announced text y)) < 2 ^ 32)%N) by lia.
    unfold lfs2_encode. cbn [huff_b bc_init].
    rewrite (init_255 L ih (announced text y) (alpha (announced text y)) 0%N HL (alpha_eq _)); auto.
    - symmetry. exact (effective_size _ Hba Hla).
    - exact (fun i => alpha_in _ i Hba Hla).
    - apply (announced_all text mn cur y dead ns); auto. apply in_or_app. auto.
    - apply (announced_all text mn cur y dead ns); auto. apply in_or_app. right. left. auto.
    - discriminate. }
  split.
  - destruct (lfs2_layers_ok text mn H T W HW exact order P) as (y & cur & dead & ns & E & I).
    { left. exists 255%N. split; [apply in_or_app; auto|discriminate]. }
    unfold lfs2_compress. rewrite E. cbn [obind]. eauto.
  - destruct (lfs2bst_layers_ok text mn H T W HW order P) as (y & cur & dead & ns & E & I).
    unfold lfs2bst_compress. rewrite E. cbn [obind]. eauto.
Qed.
Print Assumptions lfs2_huffman_255_refuted.

(** C57. Outside of that domain: with min_lrf = 0 the loop over the bins leaves their range;
    on a text of NULs only (for instance the empty text with its sentinel) that is at least
    min_lrf long, LFS2 reads in front of the text. *)
Lemma run_levels2_zero step : forall i st, run_levels2 step 0 i st = None.
Proof.
  induction i as [|i IH]; intros [[bins bp] y]; cbn [run_levels2 Nat.ltb Nat.leb].
  - destruct (nth_error bins 0) as [b|]; auto. cbn [obind]. destruct (run_nodes2 step 0 _ _); auto.
  - destruct (nth_error bins (S i)) as [b|]; auto. cbn [obind]. destruct (run_nodes2 step _ _ _); auto. cbn [obind]. apply IH.
Qed.
Theorem lfs2_refuted : forall cl cn T order text,
  (forall exact, lfs2_compress cl cn T exact 0 order text = None) /\ lfs2bst_compress cl cn T 0 order text = None /\
  (forall mn exact, Forall (fun c => c = 0%N) text -> mn <= length text -> lfs2_compress cl cn T exact mn order text = None).
Proof.
  intros cl cn T order text. split; [|split].
  - intros exact. unfold lfs2_compress, lfs2_layers, lfs2_run. cbv zeta. cbn [Nat.leb].
    destruct (strip_nul _); auto. cbn [obind]. destruct (sim_fill _ _ _); auto. cbn [obind]. rewrite run_levels2_zero. auto.
  - unfold lfs2bst_compress, lfs2bst_layers. cbv zeta. cbn [Nat.leb].
    destruct (bst_fill _ _ _ _) as [[bins mx]|]; auto. cbn [obind]. rewrite run_levels2_zero. auto.
  - intros mn exact Hz Hl. unfold lfs2_compress, lfs2_layers, lfs2_run. cbv zeta. replace (mn <=? length text) with true by lia.
    assert (E : strip_nul (rev text) = None).
    { apply Forall_rev in Hz. induction Hz as [|c r -> Hr IH]; auto. }
    rewrite E. auto.
Qed.
Print Assumptions lfs2_refuted.

(** ** Examples: "ababab$" and "xyzxyz$" *)
Definition xyz_text : list N := [120; 121; 122; 120; 121; 122; 0]%N.
Definition xyz_tree : list tnode :=
  [ab_node 0 0 [CLeaf 6; CInner 1; CInner 2; CInner 3]; ab_node 3 0 [CLeaf 3; CLeaf 0]; ab_node 2 0 [CLeaf 4; CLeaf 1];
   ab_node 1 0 [CLeaf 5; CLeaf 2]].
Definition xyz_word (x : nat) : list N := nth x [[]; [120; 121; 122]; [121; 122]; [122]]%N [].
Example xyz_tree_ok : tree_of xyz_text xyz_tree /\ traversal xyz_tree [0; 1; 2; 3].
Proof.
  split.
  - exists xyz_word. intros x t Hx.
    do 4 (destruct x as [|x]; [cbn in Hx; injection Hx as <-; cbn [td_depth td_parent td_children ab_node];
      split; [reflexivity|]; split; [discriminate|];
      split; [intros H0; first [lia | (eexists; split; [reflexivity|cbn; lia])]|];
      intros c Hc; cbn [In] in Hc;
      repeat (destruct Hc as [<-|Hc]; [first [split; [cbn; lia|reflexivity]|eexists; split; [reflexivity|]; split; [cbn; lia|split; reflexivity]]|]);
      destruct Hc|]).
    destruct x; discriminate.
  - apply NoDup_Permutation.
    + repeat constructor; cbn; intuition discriminate.
    + apply seq_NoDup.
    + intros x. rewrite in_seq. cbn. intuition lia.
Qed.
Example lfs2_ex : lfs2_layers ab_tree true 1 [0; 2; 4; 1; 3] ab_text =
    Some (mk_lay [0; 1; 0; 1; 0; 2; 0] [0; 1; 2; 1; 2; 1; 0] [0; 2; 0; 0; 0; 0; 0]
      [false; true; false; false; false; false; false] [(1, 2); (5, 1)]) /\
  (do f <- lfs2_compress (simple_b BitC) (simple_b Gamma) xyz_tree false 1 [0; 1; 2; 3] xyz_text;
   lfs2_decode (simple_b BitC) (simple_b Gamma) 8 f) = Some xyz_text /\
  (do f <- lfs2bst_compress (huff_b sorted_lib) (simple_b Gamma) ab_tree 2 [0; 2; 4; 1; 3] ab_text;
   lfs2_decode (huff_b sorted_lib) (simple_b Gamma) 8 f) = Some ab_text.
Proof. repeat split; vm_compute; reflexivity. Qed.

(** C57. An LFS2 object that has been used before keeps its rules and occurrence lists: the second
    of two texts is not restored, although each of them alone is. *)
Theorem lfs2_reuse_refuted : exists text1 T1 order1 text T order mn,
  tree_of text1 T1 /\ traversal T1 order1 /\ tree_of text T /\ traversal T order /\ 1 <= mn /\
  (exists c, In c text /\ c <> 0%N) /\
  (do y <- lfs2_layers_again T1 T false mn order1 order text1 text;
   do f <- lfs2_encode (simple_b BitC) (simple_b Gamma) text y;
   lfs2_decode (simple_b BitC) (simple_b Gamma) 100 f) <> Some text.
Proof.
  exists ab_text, ab_tree, [0; 2; 4; 1; 3], xyz_text, xyz_tree, [0; 1; 2; 3], 2.
  destruct ab_tree_ok as (A1 & A2 & _). destruct xyz_tree_ok as (B1 & B2).
  split; [exact A1|]. split; [exact A2|]. split; [exact B1|]. split; [exact B2|]. split; [lia|].
  split; [exists 120%N; split; [left; reflexivity|discriminate]|].
  vm_compute. discriminate.
Qed.
Print Assumptions lfs2_reuse_refuted.
