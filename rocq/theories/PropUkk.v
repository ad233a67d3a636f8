(** Property C58: Ukkonen's construction (ds/SuffixTree.hpp) builds the suffix tree, and the LFS
    compressor with STStrategy on top of it is lossless. *)
From Coq Require Import Permutation.
From Verif Require Import Base BitIO BitIOProofs IntCodes IntCodesProofs Coders CodersProofs
  Huffman HuffmanSpec HuffmanProofs PropHuffman BitCoders Strategies Lfs LfsSpec LfsProofs LfsEsaProofs PropLfs
  LfsTree LfsTreeSpec LfsTreeProofs PropLfsTree Ukk UkkSpec UkkProofs UkkLoopProofs UkkTreeProofs UkkVisitProofs.
Local Open Scope nat_scope.

(** C58. For every text the construction runs to the end without an out of range access, a null
    pointer or an endless loop, and delivers a suffix tree; if the last letter occurs nowhere
    else, every suffix has its leaf. *)
Theorem suffix_tree_correct : forall text, exists nodes, suffix_tree text = Some nodes /\ is_suffix_tree text nodes /\
  (terminated text -> all_leaves text nodes).
Proof.
  intros text. destruct (suffix_tree_inv text) as (nodes & suf & p & d & E & I & Hs & HK & HP & HZ). exists nodes. split; auto. split.
  - eapply result_tree; eauto.
  - eapply all_leaves_ok; eauto.
Qed.
Print Assumptions suffix_tree_correct.

(** C58. The visit of the finished tree, with the children of each node in any order (they are in
    a std::unordered_map), hands the strategy a tree with the properties it needs. *)
Theorem st_tree_correct : forall ord text, (forall x l, Permutation (ord x l) l) -> terminated text ->
  exists T, st_tree ord text = Some T /\ tree_of text T /\ (no_repeat text 400 -> Forall (fun t => td_depth t < 400) T).
Proof.
  intros ord text Ho Ht. destruct (suffix_tree_inv text) as (nodes & suf & p & d & E & I & Hs & HK & HP & HZ).
  assert (Es : suf = length text) by (eapply terminated_suf; eauto).
  assert (H0 : 0 < suf) by (destruct Ht as (t & c & -> & _); rewrite Es, app_length; cbn; lia).
  destruct (tree_built text suf nodes p d I Hs H0 ord Ho) as (vs & T & T1 & T2 & T3 & T4). exists T. split; auto.
  unfold st_tree. rewrite E. cbn [obind]. rewrite T1. cbn [obind]. auto.
Qed.
Print Assumptions st_tree_correct.

(** LFSCompressor with STStrategy, from the text *)
Definition st_strategy (ord : nat -> list (N * nat) -> list (N * nat)) (mn : nat) (text : list N) : option (list rule * list nts) :=
  do T <- st_tree ord text; st_rules T mn (seq 0 (length T)) (length text).
(** C58, end to end *)
Theorem lfs_st_lossless : forall cl Pl k ord text mn,
  bcoder_ok Pl cl -> Pl text -> bytes_ok text -> (N.of_nat (length text) < 2 ^ 32)%N ->
  (forall x l, Permutation (ord x l) l) -> terminated text -> no_repeat text 400 -> 1 <= mn ->
  exists f, lfs_compress cl (simple_b k) (st_strategy ord mn) text = Some f /\ bytes_ok f /\
    forall fuel, 2 * length text < fuel -> lfs_decode cl (simple_b k) fuel f = Some text.
Proof.
  intros cl Pl k ord text mn Hcl HP Hb Hn Ho Ht Hr Hm. apply (lfs_rules_lossless cl Pl k text mn); auto. intros _.
  destruct (st_tree_correct ord text Ho Ht) as (T & T1 & T2 & T3). unfold st_strategy. rewrite T1. cbn [obind].
  apply lfs_st_rules; auto. apply Permutation_refl.
Qed.
Print Assumptions lfs_st_lossless.

(** C58. Without a terminator there are suffixes without a leaf: one that occurs earlier in the text *)
Theorem no_leaf_refuted : exists text nodes, text <> [] /\ suffix_tree text = Some nodes /\ ~ all_leaves text nodes.
Proof.
  exists [97; 97]%N. eexists. split; [discriminate|]. split; [vm_compute; reflexivity|].
  intros H. destruct (H 1) as (y & v & V1 & V2); [cbn; lia|]. destruct y as [|[|[|y]]]; cbn in V1; try discriminate; injection V1 as <-; discriminate.
Qed.
Print Assumptions no_leaf_refuted.

(** ** Examples *)
Definition banana : list N := [98; 97; 110; 97; 110; 97; 0]%N.
Example banana_tree : exists nodes, suffix_tree banana = Some nodes /\ length nodes = 11 /\
  map u_link nodes = [0; 0; 0; 0; 6; 0; 8; 0; 0; 0; 0]%nat /\
  filter (fun o => match o with Some _ => true | None => false end) (map u_leaf nodes) = [Some 0; Some 1; Some 2; Some 3; Some 4; Some 5; Some 6].
Proof. vm_compute. eexists. repeat split. Qed.
Lemma no_repeat_short text k : length text <= k -> no_repeat text k.
Proof. intros H i j Hij Hj. lia. Qed.
Example banana_ok : terminated banana /\ no_repeat banana 400 /\ bytes_ok banana /\
  exists d ns, st_strategy (fun _ l => rev l) 2 banana = Some (d, ns) /\ d = [(2, 2)] /\ ns = [(2, 0, 2); (4, 0, 2)].
Proof.
  split; [|split; [|split]].
  - exists [98; 97; 110; 97; 110; 97]%N, 0%N. split; auto. cbn. intuition discriminate.
  - apply no_repeat_short. cbn. lia.
  - repeat constructor.
  - vm_compute. eexists; eexists. repeat split.
Qed.
