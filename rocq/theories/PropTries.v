(** Properties C14, C15: the LZ78 tries implement a dictionary. *)
From Verif Require Import Base BitIO IntCodes Coders CodersProofs LZ LZProofs Tries TriesProofs HashTrieProofs LZ78BoundedSpec LZ78BoundedProofs HashTrieNulProofs.
Local Open Scope N_scope.

(** C14.  The Binary, BinarySorted and Ternary tries answer every sequence of
    find_or_insert / clear calls like the abstract dictionary ([trie_ok], LZ.v), as
    long as fewer than 2^32 - 1 nodes exist. *)
Theorem tries_are_dictionaries :
  trie_ok (2 ^ 32 - 1) binary_trie /\ trie_ok (2 ^ 32 - 1) binary_sorted_trie /\
  trie_ok (2 ^ 32 - 1) ternary_trie.
Proof. exact (conj binary_trie_ok_pf (conj binary_sorted_trie_ok_pf ternary_trie_ok_pf)). Qed.
Print Assumptions tries_are_dictionaries.

(** C14, in words of single calls: after any sequence of find_or_insert calls (each on
    an existing parent) the answers are those of a map from (parent, letter) to ids. *)
Fixpoint run_trie (t : trie) (st : t_st t) (qs : list (N * N)) : option (list (N * bool)) :=
  match qs with
  | [] => Some []
  | (p, c) :: qs' =>
      do (r, st') <- t_find t st p c;
      do rs <- run_trie t st' qs';
      Some (r :: rs)
  end.
(** ids are handed out in order of first occurrence: [k + (number of pairs seen
    before)]; a repeated pair gets its first id *)
Fixpoint run_dict (k : N) (seen : list (N * N)) (qs : list (N * N)) : list (N * bool) :=
  match qs with
  | [] => []
  | (p, c) :: qs' =>
      match find (fun e => (fst e =? p) && (snd (snd e) =? c))
                 (map (fun '(i, (p', c')) => (p', (i, c'))) (combine (seq 0 (length seen)) seen)) with
      | Some (_, (i, _)) => (k + N.of_nat i, false) :: run_dict k seen qs'
      | None => (k + N.of_nat (length seen), true) :: run_dict k (seen ++ [(p, c)]) qs'
      end
  end.
Lemma find_ent seen p c : forall off,
  find (fun e => (fst e =? p) && (snd (snd e) =? c))
       (map (fun '(i, (p', c')) => (p', (i, c'))) (combine (seq off (length seen)) seen))
  = option_map (fun i => (p, ((off + i)%nat, c))) (ent_find seen p c).
Proof.
  induction seen as [|[p' c'] seen IH]; intros off; [reflexivity|]. cbn [length seq combine map find fst snd ent_find].
  destruct ((p' =? p) && (c' =? c)) eqn:B.
  - simpl. replace p' with p by lia. replace c' with c by lia. rewrite Nat.add_0_r. reflexivity.
  - rewrite IH. destruct (ent_find seen p c); simpl; auto. do 4 f_equal. lia.
Qed.
Theorem trie_answers_like_map : forall t k qs,
  (t = binary_trie \/ t = binary_sorted_trie \/ t = ternary_trie) -> (k = 1 \/ k = 256) ->
  Forall (fun q => snd q < 256) qs -> N.of_nat (length qs) + 257 < 2 ^ 32 ->
  (** every parent is a node that exists when it is used *)
  (forall i p c, nth_error qs i = Some (p, c) ->
     p < k \/ In (p, true) (firstn i (run_dict k [] qs))) ->
  exists st, t_init t k = Some st /\ run_trie t st qs = Some (run_dict k [] qs).
Proof.
  intros t k qs Ht Hk Hc Hl Hp.
  assert (Hok : trie_ok (2 ^ 32 - 1) t).
  { destruct Ht as [->|[->| ->]]; auto using binary_trie_ok_pf, binary_sorted_trie_ok_pf, ternary_trie_ok_pf. }
  destruct Hok as (TR & Hi & _ & _ & _ & Hfind).
  destruct (Hi k Hk) as (st & I & HR). exists st. split; auto. clear I Hi Ht.
  assert (G : forall qs seen st, TR st (mk_atrie k seen) ->
    Forall (fun q => snd q < 256) qs -> N.of_nat (length seen + length qs) + 257 < 2 ^ 32 ->
    (forall i p c, nth_error qs i = Some (p, c) ->
       p < k + N.of_nat (length seen) \/ In (p, true) (firstn i (run_dict k seen qs))) ->
    run_trie t st qs = Some (run_dict k seen qs)).
  2:{ apply (G qs [] st); auto.
      intros i p c H. destruct (Hp i p c H); [left; simpl; lia|right; auto]. }
  clear qs st HR Hc Hl Hp. induction qs as [|[p c] qs IH]; intros seen st HR Hc Hl Hp; [reflexivity|].
  inversion Hc as [|? ? Hc1 Hc2]; subst. simpl in Hc1, Hl.
  assert (Hp0 : p < k + N.of_nat (length seen)) by (destruct (Hp 0%nat p c eq_refl) as [?|[]]; auto).
  destruct (Hfind st (mk_atrie k seen) p c HR) as (st' & F & HR'); auto.
  { unfold at_size; simpl; destruct Hk; lia. }
  cbn [run_trie run_dict]. rewrite F. cbn [obind]. rewrite find_ent.
  unfold at_find in *. cbn [a_ent a_roots] in *.
  destruct (ent_find seen p c) as [j|] eqn:Ef; cbn [fst snd option_map] in *.
  - rewrite (IH seen st' HR' Hc2); cbn [obind]; auto; try lia.
    intros i q d Hq. destruct (Hp (S i) q d Hq) as [?|Hin]; auto.
    cbn [run_dict] in Hin. rewrite find_ent, Ef in Hin. cbn [option_map] in Hin.
    simpl in Hin. destruct Hin as [Hin|Hin]; [discriminate|auto].
  - rewrite (IH (seen ++ [(p, c)]) st' HR' Hc2); cbn [obind]; auto.
    + rewrite app_length; simpl; lia.
    + intros i q d Hq. destruct (Hp (S i) q d Hq) as [?|Hin].
      * left. rewrite app_length; simpl; lia.
      * cbn [run_dict] in Hin. rewrite find_ent, Ef in Hin. cbn [option_map firstn] in Hin.
        destruct Hin as [Hin|Hin]; [|right; auto].
        left. inversion Hin; subst. rewrite app_length; simpl; lia.
Qed.
Print Assumptions trie_answers_like_map.

Example trie_run : forall st, t_init ternary_trie 1 = Some st ->
  run_trie ternary_trie st [(0, 98); (0, 97); (1, 97); (0, 98); (0, 99); (1, 97); (2, 0)]
  = Some [(1, true); (2, true); (3, true); (1, false); (4, true); (3, false); (5, true)] /\
  run_dict 1 [] [(0, 98); (0, 97); (1, 97); (0, 98); (0, 99); (1, 97); (2, 0)]
  = [(1, true); (2, true); (3, true); (1, false); (4, true); (3, false); (5, true)].
Proof. intros st H. apply Some_inj in H. subst st. split; vm_compute; reflexivity. Qed.

(** Hence LZ78 and LZW with these tries are lossless (C10, C12). *)
Theorem lz78_lzw_with_tries : forall t text,
  (t = binary_trie \/ t = binary_sorted_trie \/ t = ternary_trie) -> bytes_ok text ->
  N.of_nat (length text) + 258 < 2 ^ 32 ->
  (forall c, coder_ok_char c ->
     exists f, lz78_compress t 0 c text = Some f /\
       forall fuel, (length text <= fuel)%nat -> lz78_decompress c fuel f = Some text) /\
  (forall c, coder_ok c ->
     exists f, lzw_compress t 0 c text = Some f /\
       forall fuel, (length text <= fuel)%nat -> lzw_decompress c 0 fuel f = Some text).
Proof.
  intros t text Ht Hb Hl.
  assert (Hok : trie_ok (2 ^ 32 - 1) t).
  { destruct Ht as [->|[->| ->]]; auto using binary_trie_ok_pf, binary_sorted_trie_ok_pf, ternary_trie_ok_pf. }
  split; intros c Hc.
  - apply (lz78_char_pf (2 ^ 32 - 1)); auto; lia.
  - apply (lzw_pf (2 ^ 32 - 1)); auto; lia.
Qed.
Print Assumptions lz78_lzw_with_tries.

(** C15.  The hash tries are not dictionaries, but on texts without NUL bytes LZ78 and
    LZW (unlimited dictionary) with them are lossless. *)
Theorem hash_tries_roundtrip : forall t text,
  (t = hash_trie \/ t = csh_trie) -> bytes_ok text -> ~ In 0 text ->
  N.of_nat (length text) + 258 < 2 ^ 32 ->
  (forall c, coder_ok_char c ->
     exists f, lz78_compress t 0 c text = Some f /\
       forall fuel, (length text <= fuel)%nat -> lz78_decompress c fuel f = Some text) /\
  (forall c, coder_ok c ->
     exists f, lzw_compress t 0 c text = Some f /\
       forall fuel, (length text <= fuel)%nat -> lzw_decompress c 0 fuel f = Some text).
Proof.
  exact (fun t text Ht Hb H0 Hl => conj (fun c Hc => hash_lz78_pf t c text Ht Hc Hb H0 Hl)
                                        (fun c Hc => hash_lzw_pf t c text Ht Hc Hb H0 Hl)).
Qed.
Print Assumptions hash_tries_roundtrip.

(** C15.  LZ78 with the hash trie, for every text: the decompressor returns the text
    without the NUL bytes that stand at a phrase start ([lz78_without_nul_starts],
    LZ78BoundedSpec.v). *)
Theorem hash_trie_lz78_exact : forall c text,
  coder_ok_char c -> bytes_ok text -> N.of_nat (length text) + 1 < 2 ^ 32 ->
  exists f, lz78_compress hash_trie 0 c text = Some f /\
    forall fuel, (length text <= fuel)%nat ->
      lz78_decompress c fuel f = Some (lz78_without_nul_starts text).
Proof. exact hash_nul_pf. Qed.
Print Assumptions hash_trie_lz78_exact.

(** C15.  Hence it is lossless exactly on the texts of which no LZ78 factor starts
    with NUL. *)
Theorem hash_trie_lz78_lossless_iff : forall c text f,
  coder_ok_char c -> bytes_ok text -> N.of_nat (length text) + 1 < 2 ^ 32 ->
  lz78_compress hash_trie 0 c text = Some f ->
  (lz78_decompress c (length text) f = Some text <->
   Forall (fun w => hd 1 w <> 0) (lz78_factors text)).
Proof.
  intros c text f Hc Hb Hl E. destruct (hash_nul_pf c text Hc Hb Hl) as (f' & E' & D).
  rewrite E in E'. apply Some_inj in E'. subst f'. rewrite (D _ (le_n _)).
  unfold lz78_factors. rewrite <- drop_id_iff by (cbn; lia). unfold lz78_without_nul_starts.
  split; [apply Some_inj|congruence].
Qed.
Print Assumptions hash_trie_lz78_lossless_iff.
Example hash_trie_nul_run :
  lz78_without_nul_starts [97; 0; 98; 98; 0; 97; 0; 0; 99] = [97; 98; 98; 0; 97; 0; 99] /\
  lz78_factors [97; 98; 98; 0; 97; 0] = [[97]; [98]; [98; 0]; [97; 0]].
Proof. split; vm_compute; reflexivity. Qed.

(** C15, findings.  With NUL bytes the root's key collides: the text "\0" compresses to
    nothing with the hash trie and "\0\1\1\2" comes back as "\0\1\0\2" with the compact
    one; LZW turns "\0a" into "a".  And clear() does nothing, so a bounded LZW
    dictionary breaks even without NUL bytes. *)
Theorem hash_trie_not_dictionary : ~ trie_ok 2 hash_trie.
Proof.
  intros (TR & Hi & _ & _ & _ & Hf). destruct (Hi 1 (or_introl eq_refl)) as (st & I & HR).
  apply Some_inj in I. destruct (Hf st _ 0 0 HR) as (st' & F & _); try (vm_compute; reflexivity).
  subst st. vm_compute in F. discriminate.
Qed.
Print Assumptions hash_trie_not_dictionary.
Theorem hash_trie_nul_refuted :
  (exists f, lz78_compress hash_trie 0 (simple_coder Ascii) [0] = Some f /\
     lz78_decompress (simple_coder Ascii) 10 f = Some []) /\
  (exists f, lz78_compress csh_trie 0 (simple_coder Ascii) [0; 1; 1; 2] = Some f /\
     lz78_decompress (simple_coder Ascii) 10 f = Some [0; 1; 0; 2]) /\
  (exists f, lzw_compress hash_trie 0 (simple_coder Ascii) [0; 97] = Some f /\
     lzw_decompress (simple_coder Ascii) 0 10 f = Some [97]) /\
  (exists f, lzw_compress hash_trie 257 (simple_coder Ascii) [97; 98; 97; 98; 97; 98] = Some f /\
     lzw_decompress (simple_coder Ascii) 257 2000 f = None).
Proof. repeat split; eexists; (split; [vm_compute; reflexivity|vm_compute; reflexivity]). Qed.
Print Assumptions hash_trie_nul_refuted.
