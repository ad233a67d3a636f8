(** Property C56: the suffix tree strategies of the LFS compressor. *)
From Coq Require Import Permutation Sorted.
From Verif Require Import Base BitIO BitIOProofs IntCodes IntCodesProofs Coders CodersProofs
  Huffman HuffmanSpec HuffmanProofs PropHuffman BitCoders Strategies Lfs LfsSpec LfsProofs LfsEsaProofs PropLfs
  LfsTree LfsTreeSpec LfsTreeProofs.
Local Open Scope nat_scope.

(** a set of rules that describes the text: valid in the sense of LfsSpec, every rule at least
    [mn] characters long and used at least twice *)
Definition good_rules (text : list N) (mn : nat) (r : option (list rule * list nts)) : Prop :=
  exists d ns, r = Some (d, ns) /\ rules_ok text d /\ uses_ok text d 0 ns /\ length d <= length text /\
    Forall (fun r => mn <= snd r) d /\ forall sym, sym < length d -> 2 <= times_used sym ns.

(** C56. For every text and every suffix tree of it, visited in any order, and every minimal
    length of at least 1, the three strategies run to the end without an out of range access and
    deliver valid rules.  STStrategy does so if no node is 400 characters deep or deeper. *)
Theorem lfs_bst_rules : forall text T order mn, tree_of text T -> traversal T order -> 1 <= mn ->
  good_rules text mn (bst_rules T mn order (length text)).
Proof. intros text T order mn [W HW] P H. exact (bst_ok text mn T W H HW order P). Qed.
Print Assumptions lfs_bst_rules.
Theorem lfs_sim_st_rules : forall text T order mn, tree_of text T -> traversal T order -> (1 <= mn < 65536)%N ->
  good_rules text (N.to_nat mn) (sim_rules T mn order (length text)).
Proof.
  intros text T order mn [W HW] P H. apply (sim_ok text (N.to_nat mn) T W); auto; [lia|].
  unfold short. rewrite N.mod_small by lia. auto.
Qed.
Print Assumptions lfs_sim_st_rules.
Theorem lfs_st_rules : forall text T order mn, tree_of text T -> traversal T order -> 1 <= mn ->
  Forall (fun t => td_depth t < 400) T -> good_rules text mn (st_rules T mn order (length text)).
Proof. intros text T order mn [W HW] P H H4. exact (st_ok text mn T W H HW order P H4). Qed.
Print Assumptions lfs_st_rules.

(** C56, end to end: with any of these rules (and any coders on a shared stream) the compressor
    is lossless. *)
Theorem lfs_rules_lossless : forall cl Pl k text mn rules,
  bcoder_ok Pl cl -> Pl text -> bytes_ok text -> (N.of_nat (length text) < 2 ^ 32)%N ->
  (1 < length text -> good_rules text mn (rules text)) ->
  exists f, lfs_compress cl (simple_b k) rules text = Some f /\ bytes_ok f /\
    forall fuel, 2 * length text < fuel -> lfs_decode cl (simple_b k) fuel f = Some text.
Proof.
  intros cl Pl k text mn rules Hcl HP Hb Hn Hr. unfold lfs_compress.
  assert (G : exists d ns, (if 1 <? length text then rules text else Some ([], [])) = Some (d, ns) /\
    rules_ok text d /\ uses_ok text d 0 ns /\ length d <= length text).
  { destruct (Nat.ltb_spec 1 (length text)) as [L|L].
    - destruct (Hr L) as (d & ns & E & R1 & R2 & R3 & _). exists d, ns. auto.
    - exists [], []. split; auto. split; [split; constructor|]. split; [exact I|cbn; lia]. }
  destruct G as (d & ns & -> & R1 & R2 & R3). cbn [obind].
  destruct (lfs_encode_ok cl (simple_b k) Pl (fun _ => True) text d ns) as (f & F1 & F2 & F3); auto.
  - apply simple_b_ok.
  - lia.
  - exists f. split; auto. split; auto. intros fuel Hf. apply F3. lia.
Qed.
Print Assumptions lfs_rules_lossless.

Theorem lfs_trees_lossless : forall cl Pl k text T order mn,
  bcoder_ok Pl cl -> Pl text -> bytes_ok text -> (N.of_nat (length text) < 2 ^ 32)%N ->
  tree_of text T -> traversal T order -> (1 <= mn < 65536)%N ->
  forall strategy, In strategy [(fun t => bst_rules T (N.to_nat mn) order (length t)); (fun t => sim_rules T mn order (length t))] \/
    (strategy = (fun t => st_rules T (N.to_nat mn) order (length t)) /\ Forall (fun t => td_depth t < 400) T) ->
  exists f, lfs_compress cl (simple_b k) strategy text = Some f /\ bytes_ok f /\
    forall fuel, 2 * length text < fuel -> lfs_decode cl (simple_b k) fuel f = Some text.
Proof.
  intros cl Pl k text T order mn Hcl HP Hb Hn HT Ho Hm strategy Hs.
  apply (lfs_rules_lossless cl Pl k text (N.to_nat mn)); auto. intros _.
  destruct Hs as [[<-|[<-|[]]]|[-> H4]].
  - apply lfs_bst_rules; auto. lia.
  - apply lfs_sim_st_rules; auto.
  - apply lfs_st_rules; auto. lia.
Qed.
Print Assumptions lfs_trees_lossless.

(** C56. Outside that domain: min_lrf = 0 never terminates in range (the unsigned loop variable
    wraps); for SimSTStrategy so does every multiple of 65536, because min_lrf is stored in an
    unsigned short. *)
Theorem lfs_min_lrf_zero_refuted : forall T order n,
  bst_rules T 0 order n = None /\ st_rules T 0 order n = None /\
  forall q, sim_rules T (65536 * q)%N order n = None.
Proof.
  intros T order n. split; [|split; [|intros q]].
  - unfold bst_rules. destruct (bst_fill _ _ _ _) as [[bins mx]|]; auto. cbn [obind]. rewrite run_levels_zero. auto.
  - unfold st_rules. destruct (st_fill _ _ _) as [bins|]; auto. cbn [obind]. rewrite run_levels_zero. auto.
  - unfold sim_rules. replace (short (65536 * q)) with 0.
    + destruct (sim_fill _ _ _) as [bins|]; auto. cbn [obind]. rewrite run_levels_zero. auto.
    + unfold short. rewrite N.mul_comm, N.mod_mul by lia. auto.
Qed.
Print Assumptions lfs_min_lrf_zero_refuted.

(** C56. STStrategy doubles its 200 bins once per node: the first node at depth 200 or more, if it
    is at depth 400 or more, is written outside of them. *)
Theorem lfs_st_deep_refuted : forall T mn n pre x post t,
  Forall (fun y => exists u, nth_error T y = Some u /\ td_depth u < 200) pre ->
  nth_error T x = Some t -> 400 <= td_depth t -> st_rules T mn (pre ++ x :: post) n = None.
Proof.
  intros T mn n pre x post t Hp Ht Hd. unfold st_rules.
  assert (E : length bins0 = 200) by (unfold bins0; apply repeat_length).
  rewrite (st_fill_none T pre x post t bins0); [reflexivity| | |exact Ht|]; rewrite E; [lia|exact Hp|exact Hd].
Qed.
Print Assumptions lfs_st_deep_refuted.

(** ** Example: the suffix tree of "ababab$" *)
Definition ab_text : list N := [97; 98; 97; 98; 97; 98; 0]%N.
Definition ab_node d p cs := {| td_depth := d; td_parent := p; td_children := cs |}.
Definition ab_tree : list tnode :=
  [ab_node 0 0 [CLeaf 6; CInner 1; CInner 2]; ab_node 2 0 [CLeaf 4; CInner 3]; ab_node 1 0 [CInner 4; CLeaf 5];
   ab_node 4 1 [CLeaf 2; CLeaf 0]; ab_node 3 2 [CLeaf 1; CLeaf 3]].
Definition ab_word (x : nat) : list N :=
  nth x [[]; [97; 98]; [98]; [97; 98; 97; 98]; [98; 97; 98]]%N [].
Example ab_tree_ok : tree_of ab_text ab_tree /\ traversal ab_tree [0; 2; 4; 1; 3] /\ Forall (fun t => td_depth t < 400) ab_tree.
Proof.
  split; [|split].
  - exists ab_word. intros x t Hx.
    do 5 (destruct x as [|x]; [cbn in Hx; injection Hx as <-; cbn [td_depth td_parent td_children ab_node];
      split; [reflexivity|]; split; [discriminate|];
      split; [intros H0; first [lia | (eexists; split; [reflexivity|cbn; lia])]|];
      intros c Hc; cbn [In] in Hc;
      repeat (destruct Hc as [<-|Hc]; [first [split; [cbn; lia|reflexivity]|eexists; split; [reflexivity|]; split; [cbn; lia|split; reflexivity]]|]);
      destruct Hc|]).
    destruct x; discriminate.
  - apply NoDup_Permutation.
    + repeat constructor; cbn; intuition discriminate.
    + apply seq_NoDup.
    + intros x. rewrite in_seq. cbn. intuition lia.
  - repeat constructor; cbn; lia.
Qed.
Example ab_rules : bst_rules ab_tree 2 [0; 2; 4; 1; 3] 7 = Some ([(0, 2)], [(0, 0, 2); (2, 0, 2); (4, 0, 2)]) /\
  st_rules ab_tree 1 [0; 2; 4; 1; 3] 7 = Some ([(0, 2)], [(0, 0, 2); (2, 0, 2); (4, 0, 2)]) /\
  sim_rules ab_tree 2 [0; 1; 2; 3; 4] 7 = Some ([(0, 2)], [(0, 0, 2); (2, 0, 2); (4, 0, 2)]).
Proof. repeat split; vm_compute; reflexivity. Qed.
