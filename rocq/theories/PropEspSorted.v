(** C53: the ESP compressor with the sorted SLP coder. *)
From Verif Require Import Base BitIO IntCodes Esp EspSpec EspProofs SlpSort SlpSortProofs SlpCoderProofs DCodings DCodingsProofs
  Succinct SubseqSpec SuccinctProofs SubseqGreedyProofs WtCoding WtProofs SubOptimal SubOptimalProofs.
Local Open Scope N_scope.

(** Renumbering the rules keeps what the grammar expands to and leaves the left-hand
    sides in ascending order. *)
Theorem slp_dep_sort_sorted text : bytes_ok text -> N.of_nat (length text) < 2 ^ 32 ->
  exists g g', generate_grammar text = Some g /\ slp_dep_sort g = Some g' /\
    length (s_rules g') = length (s_rules g) /\ derive_text g' = Some text /\
    (forall i j, (i <= j < length (s_rules g'))%nat -> fst (nth i (s_rules g') (0, 0)) <= fst (nth j (s_rules g') (0, 0))).
Proof.
  intros Hb Ht. destruct (grammar_ok text Hb Ht) as (g & E & Hg). destruct (dep_sort_ok g text Hg) as (g' & E' & _ & Hl & Ha & _ & _ & _ & _ & Hd).
  exists g, g'. split; [auto|]. split; [auto|]. split; [auto|]. split; [auto|]. revert Ha. generalize (s_rules g') as l. generalize 0 at 1. clear.
  intros a l Ha i j. revert a l i Ha. induction j as [|j IH]; intros a l i Ha Hi.
  - replace i with 0%nat by lia. lia.
  - destruct l as [|x l]; [cbn in Hi; lia|]. destruct Ha as [Ha1 Ha2]. destruct i as [|i].
    + cbn [nth]. destruct l as [|y l]; [cbn in Hi; lia|]. etransitivity; [|apply (IH _ _ 0%nat Ha2); cbn in *; lia]. cbn. exact (proj1 Ha2).
    + cbn [nth]. eapply IH; eauto. cbn in Hi. lia.
Qed.
Print Assumptions slp_dep_sort_sorted.

Theorem esp_sorted_plain_roundtrip text : bytes_ok text -> N.of_nat (length text) < 2 ^ 32 ->
  exists f, esp_sorted_compress d_plain text = Some f /\ esp_sorted_decompress d_plain f = Some text.
Proof. exact (esp_sorted_ok d_plain text d_plain_ok). Qed.
Print Assumptions esp_sorted_plain_roundtrip.

Theorem esp_sorted_diff_roundtrip text : bytes_ok text -> N.of_nat (length text) < 2 ^ 32 ->
  exists f, esp_sorted_compress d_diff text = Some f /\ esp_sorted_decompress d_diff f = Some text.
Proof. exact (esp_sorted_ok d_diff text d_diff_ok). Qed.
Print Assumptions esp_sorted_diff_roundtrip.

(** The right-hand sides of the renumbered grammar. *)
Definition esp_rhs (text : list N) : option (list N) :=
  do g <- generate_grammar text; do g' <- slp_dep_sort g; Some (map snd (s_rules g')).

(** range_fit (wt = false, with or without threshold and zero_min): the compressor
    ends the program (CHECK_EQ at DRCoder.hpp:397) exactly if there is a rule, the
    minima are written as unary differences and one of them is not 0; in every
    other case decompressing gives the input back. *)
Theorem esp_sorted_range_fit_exact close zm text : bytes_ok text -> N.of_nat (length text) < 2 ^ 32 ->
  exists rhs, esp_rhs text = Some rhs /\
    let aborts := rhs <> [] /\ range_fit_aborts close zm rhs (N.of_nat (length rhs) + 255) in
    (aborts /\ esp_sorted_compress (d_range_fit close zm) text = None) \/
    (~ aborts /\ exists f, esp_sorted_compress (d_range_fit close zm) text = Some f /\
                           esp_sorted_decompress (d_range_fit close zm) f = Some text).
Proof.
  intros Hb Ht. destruct (grammar_ok text Hb Ht) as (g & E & Hg). destruct (dep_sort_ok g text Hg) as (g' & E' & Ee & Hl & _ & HF & _ & Hr & _).
  exists (map snd (s_rules g')). unfold esp_rhs. rewrite E. cbn [obind]. rewrite E'. cbn [obind]. split; [reflexivity|]. cbv zeta.
  assert (G : (map snd (s_rules g') <> [] -> ~ range_fit_aborts close zm (map snd (s_rules g')) (N.of_nat (length (map snd (s_rules g'))) + 255)) ->
              exists f, esp_sorted_compress (d_range_fit close zm) text = Some f /\ esp_sorted_decompress (d_range_fit close zm) f = Some text).
  { intros Hn. destruct (sorted_slp_roundtrip (d_range_fit close zm) g text Hg) as (b & g2 & E1 & E2 & E3).
    - intros g2 Es Hne. rewrite E' in Es. apply Some_inj in Es. subst g2. rewrite map_length in Hn.
      destruct (d_range_fit_exact close zm (map snd (s_rules g')) (N.of_nat (length (s_rules g')) + 255)) as [[H _]|[_ H]]; auto.
      + rewrite map_length. reflexivity.
      + destruct Hg as (_ & H & _). lia.
      + apply Forall_map. eapply Forall_impl; [|exact HF]. cbn. intros; lia.
      + exfalso. apply Hn; auto. destruct (s_rules g'); [congruence|discriminate].
    - exists (bits_file b). unfold esp_sorted_compress, esp_sorted_decompress. rewrite E. cbn [obind]. rewrite E1. cbn [obind].
      split; [reflexivity|]. rewrite E2. exact E3. }
  destruct (list_eq_dec N.eq_dec (map snd (s_rules g')) []) as [E0|E0].
  - right. split; [intros [H _]; contradiction|]. apply G. intros H; contradiction.
  - destruct (d_range_fit_exact close zm (map snd (s_rules g')) (N.of_nat (length (map snd (s_rules g'))) + 255)) as [[H H']|[Hn _]].
    + reflexivity.
    + rewrite map_length. destruct Hg as (_ & H & _). lia.
    + rewrite map_length. apply Forall_map. eapply Forall_impl; [|exact HF]. cbn. intros; lia.
    + left. split; [auto|]. unfold esp_sorted_compress. rewrite E. cbn [obind]. unfold sorted_slp_bits. rewrite E'. cbn [obind].
      rewrite Ee. destruct Hg as (Ho & Hsz & Hg). destruct (s_empty g) eqn:Eem.
      { exfalso. destruct Hg as (_ & Hr0 & _). rewrite Hr0 in Hl. cbn in Hl. destruct (s_rules g'); [apply E0; reflexivity|discriminate]. }
      cbn [orb]. destruct (N.ltb_spec (s_root g') 256) as [Hlt|Hlt].
      { exfalso. apply Hr in Hlt. destruct Hg as (Hg1 & Hg2 & Hg3). inversion Hg2; subst; [|lia]. cbn [length] in *.
        assert (length (s_rules g') = 0)%nat by lia. destruct (s_rules g'); [apply E0; reflexivity|discriminate]. }
      rewrite map_length in H'. replace (N.of_nat (length (s_rules g')) + 256 - 1) with (N.of_nat (length (s_rules g')) + 255) by lia.
      rewrite H'. reflexivity.
    + right. split; [tauto|]. apply G. auto.
Qed.
Print Assumptions esp_sorted_range_fit_exact.

(** A text of 31 bytes for which range_fit (default options) ends the program. *)
Definition range_fit_ex : list N := [253; 254; 255] ++ map N.of_nat (seq 0 28).
Theorem esp_sorted_range_fit_refuted : bytes_ok range_fit_ex /\ esp_sorted_compress (d_range_fit None false) range_fit_ex = None.
Proof.
  split; [|vm_compute; reflexivity]. unfold bytes_ok, byte_ok. apply Forall_forall. intros x Hx. apply in_app_or in Hx.
  destruct Hx as [Hx|Hx]; [cbn in Hx; intuition lia|]. apply in_map_iff in Hx. destruct Hx as (k & <- & Hk). apply in_seq in Hk. lia.
Qed.
Print Assumptions esp_sorted_range_fit_refuted.

(** "succinct": any strategy that gives monotone subsequences, any coding of the
    subsequence numbers *)
Lemma esp_succinct_ok K sub dx text : sub_ok sub -> dx_ok K dx -> K <= 2 ^ 33 -> bytes_ok text -> N.of_nat (length text) < 2 ^ 32 -> N.of_nat (length text) <= K ->
  exists f, esp_sorted_compress (d_succinct sub dx) text = Some f /\ esp_sorted_decompress (d_succinct sub dx) f = Some text.
Proof.
  intros Hs Hx HK Hb Ht HtK. destruct (grammar_ok text Hb Ht) as (g & E & Hg). pose proof (d_succinct_ok K sub dx Hs Hx HK) as Hdc.
  destruct (sorted_slp_roundtrip (d_succinct sub dx) g text Hg) as (b & g' & E1 & E2 & E3).
  - intros g' Es Hne. destruct (dep_sort_ok g text Hg) as (g2 & Es2 & _ & El & _ & HF & _). rewrite Es in Es2. apply Some_inj in Es2. subst g2.
    destruct Hg as (_ & H & Hg). apply Hdc.
    + destruct (s_rules g'); [congruence|discriminate].
    + rewrite map_length. destruct (s_empty g); [|lia]. destruct Hg as (_ & Hg & _). rewrite Hg in El. destruct (s_rules g'); [congruence|discriminate].
    + rewrite map_length. reflexivity.
    + lia.
    + apply Forall_map. eapply Forall_impl; [|exact HF]. cbn. intros; lia.
  - exists (bits_file b). unfold esp_sorted_compress, esp_sorted_decompress. rewrite E. cbn [obind]. rewrite E1. cbn [obind].
    split; [reflexivity|]. rewrite E2. exact E3.
Qed.
(** the default coding: optimal subsequences, numbers in a wavelet tree *)
Theorem esp_sorted_succinct_default_roundtrip text : bytes_ok text -> N.of_nat (length text) <= 2 ^ 30 ->
  exists f, esp_sorted_compress (d_succinct sub_optimal d_wavelet) text = Some f /\ esp_sorted_decompress (d_succinct sub_optimal d_wavelet) f = Some text.
Proof. intros Hb Ht. apply (esp_succinct_ok (2 ^ 30)); auto; [apply sub_optimal_sub_ok|apply d_wavelet_dx|lia|lia]. Qed.
Print Assumptions esp_sorted_succinct_default_roundtrip.
Theorem esp_sorted_succinct_greedy_roundtrip text : bytes_ok text -> N.of_nat (length text) <= 2 ^ 30 ->
  exists f, esp_sorted_compress (d_succinct sub_greedy d_wavelet) text = Some f /\ esp_sorted_decompress (d_succinct sub_greedy d_wavelet) f = Some text.
Proof. intros Hb Ht. apply (esp_succinct_ok (2 ^ 30)); auto; [apply sub_greedy_ok|apply d_wavelet_dx|lia|lia]. Qed.
Print Assumptions esp_sorted_succinct_greedy_roundtrip.
Theorem esp_sorted_succinct_plain_roundtrip sub text : sub = sub_optimal \/ sub = sub_greedy -> bytes_ok text -> N.of_nat (length text) < 2 ^ 32 ->
  exists f, esp_sorted_compress (d_succinct sub d_plain) text = Some f /\ esp_sorted_decompress (d_succinct sub d_plain) f = Some text.
Proof. intros Hs Hb Ht. apply (esp_succinct_ok (2 ^ 33)); auto; [|apply d_plain_dx|lia|lia]. destruct Hs as [->| ->]; [apply sub_optimal_sub_ok|apply sub_greedy_ok]. Qed.
Print Assumptions esp_sorted_succinct_plain_roundtrip.

(** Both strategies split any sequence of positions into monotone subsequences; the
    optimal one takes a longest monotone subsequence of what is left every time. *)
Theorem subseq_greedy_partition sis : is_perm sis -> sis <> [] -> N.of_nat (length sis) < 2 ^ 64 - 1 ->
  exists dpi b, sub_greedy sis = Some (dpi, b) /\ subseq_ok sis dpi b.
Proof. exact (sub_greedy_ok sis). Qed.
Print Assumptions subseq_greedy_partition.
Theorem subseq_optimal_longest sis : is_perm sis -> sis <> [] -> N.of_nat (length sis) < 2 ^ 64 - 1 ->
  exists dpi b, sub_optimal sis = Some (dpi, b) /\ subseq_ok sis dpi b /\ longest_ok sis dpi b.
Proof. exact (sub_optimal_ok sis). Qed.
Print Assumptions subseq_optimal_longest.

(** "abracadabra!aaaaaaa" *)
Definition esps_ex : list N := [97;98;114;97;99;97;100;97;98;114;97;33;97;97;97;97;97;97;97].
Example esps_ex_ok : bytes_ok esps_ex.
Proof. unfold esps_ex, bytes_ok, byte_ok; repeat constructor; lia. Qed.
Example esps_ex_sorted : option_map (fun g => map fst (s_rules g)) (do g <- generate_grammar esps_ex; slp_dep_sort g)
  = Some [97; 97; 97; 97; 97; 98; 256; 258; 259; 260; 260; 262; 263; 264; 267; 270].
Proof. vm_compute. reflexivity. Qed.
Example esps_ex_plain : (do f <- esp_sorted_compress d_plain esps_ex; esp_sorted_decompress d_plain f) = Some esps_ex.
Proof. vm_compute. reflexivity. Qed.
Example esps_ex_diff : (do f <- esp_sorted_compress d_diff esps_ex; esp_sorted_decompress d_diff f) = Some esps_ex.
Proof. vm_compute. reflexivity. Qed.
Example esps_ex_range : (do f <- esp_sorted_compress (d_range_fit None true) esps_ex; esp_sorted_decompress (d_range_fit None true) f) = Some esps_ex.
Proof. vm_compute. reflexivity. Qed.
Example esps_ex_succinct : (do f <- esp_sorted_compress (d_succinct sub_optimal d_wavelet) esps_ex; esp_sorted_decompress (d_succinct sub_optimal d_wavelet) f) = Some esps_ex.
Proof. vm_compute. reflexivity. Qed.
Example esps_ex_succinct_greedy : (do f <- esp_sorted_compress (d_succinct sub_greedy d_plain) esps_ex; esp_sorted_decompress (d_succinct sub_greedy d_plain) f) = Some esps_ex.
Proof. vm_compute. reflexivity. Qed.
(** a permutation on which the two strategies differ *)
Definition subseq_ex : list nat := [6; 0; 1; 7; 2; 3; 5; 4]%nat.
Example subseq_ex_ok : is_perm subseq_ex /\ sub_optimal subseq_ex = Some ([1; 0; 0; 1; 0; 0; 0; 2]%nat, [false; false; false])
  /\ sub_greedy subseq_ex = Some ([1; 2; 2; 0; 2; 1; 0; 0]%nat, [true; true; false]).
Proof. split; [|split; vm_compute; reflexivity]. split; [repeat constructor; cbn; intuition discriminate|]. intros x. cbn. lia. Qed.
