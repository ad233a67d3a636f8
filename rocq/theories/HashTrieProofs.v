(** HashTrie and CompactSparseHashTrie on texts without NUL bytes. *)
From Verif Require Import Base BitIO IntCodes Coders LZ LZProofs Tries.
Local Open Scope N_scope.

Fixpoint hents (id : N) (E : list (N * N)) : list (N * N) :=
  match E with
  | [] => []
  | (p, c) :: E' => (create_node p c, id) :: hents (id + 1) E'
  end.
Definition hrel (m : list (N * N)) (a : atrie) : Prop :=
  m = map (fun i => (N.of_nat i, N.of_nat i)) (seq 0 (N.to_nat (a_roots a))) ++ hents (a_roots a) (a_ent a) /\
  Forall (fun e => fst e < 2 ^ 32 /\ snd e < 256) (a_ent a).

Lemma hents_app E : forall id p c, hents id (E ++ [(p, c)]) = hents id E ++ [(create_node p c, id + N.of_nat (length E))].
Proof.
  induction E as [|[p' c'] E IH]; intros id p c; simpl.
  - do 2 f_equal. f_equal. lia.
  - rewrite IH. do 4 f_equal. lia.
Qed.
Lemma hents_len E : forall id, length (hents id E) = length E.
Proof. induction E as [|[p c] E IH]; simpl; intros; auto. Qed.
Lemma hrel_len m a : hrel m a -> N.of_nat (length m) = at_size a.
Proof. intros [-> _]. rewrite app_length, map_length, seq_length, hents_len. unfold at_size. lia. Qed.

Lemma create_node_small p c : p < 2 ^ 32 -> c < 256 -> create_node p c = p * 256 + c.
Proof. intros. unfold create_node. apply N.mod_small. lia. Qed.

Lemma hm_get_app m1 m2 k : hm_get (m1 ++ m2) k = match hm_get m1 k with Some v => Some v | None => hm_get m2 k end.
Proof. induction m1 as [|[k' v] m1 IH]; simpl; auto. destruct (k' =? k); auto. Qed.

Lemma hm_get_roots k key : (N.of_nat k <= key) -> hm_get (map (fun i => (N.of_nat i, N.of_nat i)) (seq 0 k)) key = None.
Proof.
  intros H. assert (G : forall s, (forall i, In i s -> N.of_nat i < key \/ N.of_nat i <> key) ->
    hm_get (map (fun i => (N.of_nat i, N.of_nat i)) s) key = None).
  { induction s as [|i s IH]; simpl; auto. intros Hs. replace (N.of_nat i =? key) with false.
    - apply IH; intros; apply Hs; auto.
    - destruct (Hs i); auto; lia. }
  apply G. intros i Hi. apply in_seq in Hi. left. lia.
Qed.

Lemma hm_get_ents E : forall id p c, Forall (fun e => fst e < 2 ^ 32 /\ snd e < 256) E ->
  p < 2 ^ 32 -> c < 256 ->
  hm_get (hents id E) (create_node p c) = option_map (fun k => id + N.of_nat k) (ent_find E p c).
Proof.
  induction E as [|[p' c'] E IH]; intros id p c HF Hp Hc; [reflexivity|].
  inversion HF as [|? ? [H1 H2] HF']; subst. simpl in H1, H2. cbn [hents hm_get ent_find].
  rewrite !create_node_small by auto.
  destruct (N.eqb_spec (p' * 256 + c') (p * 256 + c)) as [He|He].
  - assert (p' = p) by lia. assert (c' = c) by lia. subst. rewrite !N.eqb_refl. simpl. f_equal; lia.
  - replace ((p' =? p) && (c' =? c)) with false.
    + rewrite <- create_node_small by auto. rewrite IH by auto. destruct (ent_find E p c); simpl; auto. f_equal; lia.
    + destruct (N.eqb_spec p' p); destruct (N.eqb_spec c' c); subst; auto; congruence.
Qed.

Lemma hm_get_rel m a p c : hrel m a -> a_roots a <= p * 256 + c -> p < 2 ^ 32 -> c < 256 ->
  hm_get m (create_node p c) = option_map (fun k => a_roots a + N.of_nat k) (ent_find (a_ent a) p c).
Proof.
  intros [-> HF] Hr Hp Hc. rewrite hm_get_app, hm_get_roots.
  - apply hm_get_ents; auto.
  - rewrite create_node_small by auto. lia.
Qed.

Lemma hm_set_new m k v : hm_get m k = None -> hm_set m k v = m ++ [(k, v)].
Proof.
  induction m as [|[k' v'] m IH]; simpl; auto. destruct (k' =? k); [discriminate|]. intros H. rewrite IH; auto.
Qed.

Lemma hrel_grow m a p c : hrel m a -> p < 2 ^ 32 -> c < 256 ->
  hrel (m ++ [(create_node p c, at_size a)]) (mk_atrie (a_roots a) (a_ent a ++ [(p, c)])).
Proof.
  intros [-> HF] Hp Hc. split.
  - simpl. rewrite hents_app, app_assoc. reflexivity.
  - simpl. apply Forall_app; split; auto.
Qed.

Definition hfind_ok (find : list (N * N) -> N -> N -> option (N * bool * list (N * N))) : Prop :=
  forall m a p c, hrel m a -> 1 <= a_roots a -> a_roots a <= p * 256 + c -> p < at_size a -> at_size a < 2 ^ 32 -> c < 256 ->
  exists m', find m p c = Some (fst (at_find a p c), m') /\ hrel m' (snd (at_find a p c)).

Lemma hash_find_ok : hfind_ok hash_find.
Proof.
  intros m a p c H _ Hr Hp Hlim Hc. unfold hash_find, hm_insert, at_find.
  rewrite (hm_get_rel m a p c) by (auto; lia). rewrite (hrel_len _ _ H).
  replace (w32 (at_size a)) with (at_size a) by (unfold w32; rewrite N.mod_small; auto).
  destruct (ent_find (a_ent a) p c) as [k|]; simpl option_map; cbv iota beta.
  - exists m. split; auto.
  - eexists. split; [reflexivity|]. apply hrel_grow; auto. lia.
Qed.
Lemma csh_find_ok : hfind_ok csh_find.
Proof.
  intros m a p c H H1 Hr Hp Hlim Hc. unfold csh_find, at_find.
  rewrite (hm_get_rel m a p c) by (auto; lia). rewrite (hrel_len _ _ H).
  replace (w32 (at_size a)) with (at_size a) by (unfold w32; rewrite N.mod_small; auto).
  destruct (ent_find (a_ent a) p c) as [k|] eqn:F; simpl option_map; cbv iota beta zeta.
  - replace (a_roots a + N.of_nat k =? 0) with false by lia. exists m. split; auto.
  - change (0 =? 0) with true. cbv iota. eexists. split; [reflexivity|].
    rewrite hm_set_new. { apply hrel_grow; auto. lia. }
    rewrite (hm_get_rel m a p c) by (auto; lia). rewrite F. reflexivity.
Qed.

Lemma hash_roots_ok k : k = 1 \/ k = 256 -> hrel (hash_roots (map N.of_nat (seq 0 (N.to_nat k))) []) (mk_atrie k []).
Proof. intros [->| ->]; (split; [vm_compute; reflexivity|constructor]). Qed.
Lemma csh_roots_ok k : k = 1 \/ k = 256 -> hrel (csh_roots (map N.of_nat (seq 0 (N.to_nat k))) []) (mk_atrie k []).
Proof. intros [->| ->]; (split; [vm_compute; reflexivity|constructor]). Qed.

Section H.
  Variables (init : N -> option (list (N * N))) (reset : N -> list (N * N) -> option (list (N * N))).
  Variable find : list (N * N) -> N -> N -> option (N * bool * list (N * N)).
  Hypothesis Hf : hfind_ok find.
  Hypothesis Hinit : forall k, k = 1 \/ k = 256 -> exists m, init k = Some m /\ hrel m (mk_atrie k []).
  Let T := mk_trie (list (N * N)) init reset (fun _ c => c) find (fun m => N.of_nat (length m)).

  Lemma lz78_loop_hash : forall text m E node parent fc lastc,
    hrel m (mk_atrie 1 E) -> bytes_ok text -> ~ In 0 text ->
    node < at_size (mk_atrie 1 E) -> N.of_nat (length E + length text) + 1 < 2 ^ 32 ->
    lz78_loop T 0 m node parent fc lastc text = lz78_loop spec_trie 0 (mk_atrie 1 E) node parent fc lastc text.
  Proof.
    induction text as [|x text IH]; intros m E node parent fc lastc HR Hb H0 Hn Hl; [reflexivity|].
    inversion Hb as [|? ? Hx Hb']; subst. simpl in H0, Hl. unfold at_size in Hn; simpl in Hn.
    cbn [lz78_loop]. simpl t_find.
    destruct (Hf m (mk_atrie 1 E) node x HR) as (m' & F & HR'); simpl; try (unfold at_size; simpl; lia).
    { exact Hx. }
    rewrite F. 
    destruct (at_find_cases (mk_atrie 1 E) node x) as [(k & Hk & Hkl & Hat)|Hat]; rewrite Hat in *; simpl in HR'; cbn [fst].
    - apply IH; auto. + unfold at_size; simpl in *; lia. + lia.
    - simpl t_size. rewrite (hrel_len _ _ HR'). unfold at_size at 1 2. simpl.
      replace (1 + N.of_nat (length (E ++ [(node, x)])) =? 0) with false by lia.
      rewrite (IH m' (E ++ [(node, x)])); auto. + unfold at_size; simpl; lia. + rewrite app_length; simpl; lia.
  Qed.

  Lemma lz78_calls_hash text : bytes_ok text -> ~ In 0 text -> N.of_nat (length text) + 1 < 2 ^ 32 ->
    lz78_calls T 0 text = lz78_calls spec_trie 0 text.
  Proof.
    intros Hb H0 Hl. unfold lz78_calls. simpl t_init. destruct (Hinit 1) as (m & I & HR); auto.
    rewrite I. cbn [obind]. apply lz78_loop_hash; auto; simpl; try lia. unfold at_size; simpl; lia.
  Qed.

  Lemma lzw_loop_hash : forall text m E node fc,
    hrel m (mk_atrie 256 E) -> bytes_ok text -> ~ In 0 text -> node <> 0 ->
    node < at_size (mk_atrie 256 E) -> N.of_nat (length E + length text) + 256 < 2 ^ 32 ->
    lzw_loop T 0 m node fc text = lzw_loop spec_trie 0 (mk_atrie 256 E) node fc text.
  Proof.
    induction text as [|x text IH]; intros m E node fc HR Hb H0 Hn0 Hn Hl; [reflexivity|].
    inversion Hb as [|? ? Hx Hb']; subst. simpl in H0, Hl. unfold at_size in Hn; simpl in Hn.
    cbn [lzw_loop]. simpl t_find.
    destruct (Hf m (mk_atrie 256 E) node x HR) as (m' & F & HR'); simpl; try (unfold at_size; simpl; lia).
    { exact Hx. }
    rewrite F. unfold byte_ok in Hx.
    destruct (at_find_cases (mk_atrie 256 E) node x) as [(k & Hk & Hkl & Hat)|Hat]; rewrite Hat in *; simpl in HR'; cbn [fst].
    - apply IH; auto; simpl; try lia. unfold at_size; simpl in *; lia.
    - simpl t_size. rewrite (hrel_len _ _ HR'). unfold at_size at 1 2. simpl.
      replace (256 + N.of_nat (length (E ++ [(node, x)])) =? 0) with false by lia.
      rewrite (IH m' (E ++ [(node, x)])); auto. + unfold at_size; simpl; lia. + rewrite app_length; simpl; lia.
  Qed.
  Lemma lzw_calls_hash text : bytes_ok text -> ~ In 0 text -> N.of_nat (length text) + 256 < 2 ^ 32 ->
    lzw_calls T 0 text = lzw_calls spec_trie 0 text.
  Proof.
    intros Hb H0 Hl. unfold lzw_calls. simpl t_init. destruct (Hinit 256) as (m & I & HR); auto.
    rewrite I. cbn [obind]. destruct text as [|x text]; auto.
    inversion Hb as [|? ? Hx Hb']; subst. simpl t_root. unfold byte_ok in Hx. simpl in H0, Hl.
    apply lzw_loop_hash; auto; simpl; unfold at_size; simpl; lia.
  Qed.
End H.

Lemma hash_calls_pf : forall text, bytes_ok text -> ~ In 0 text -> N.of_nat (length text) + 256 < 2 ^ 32 ->
  lz78_calls hash_trie 0 text = lz78_calls spec_trie 0 text /\
  lzw_calls hash_trie 0 text = lzw_calls spec_trie 0 text /\
  lz78_calls csh_trie 0 text = lz78_calls spec_trie 0 text /\
  lzw_calls csh_trie 0 text = lzw_calls spec_trie 0 text.
Proof.
  intros text Hb H0 Hl.
  assert (A : forall k, k = 1 \/ k = 256 -> exists m, t_init hash_trie k = Some m /\ hrel m (mk_atrie k [])).
  { intros k Hk. eexists; split; [reflexivity|]. apply hash_roots_ok; auto. }
  assert (B : forall k, k = 1 \/ k = 256 -> exists m, t_init csh_trie k = Some m /\ hrel m (mk_atrie k [])).
  { intros k Hk. eexists; split; [reflexivity|]. apply csh_roots_ok; auto. }
  repeat split.
  - apply (lz78_calls_hash _ _ _ hash_find_ok A); auto. lia.
  - apply (lzw_calls_hash _ _ _ hash_find_ok A); auto.
  - apply (lz78_calls_hash _ _ _ csh_find_ok B); auto. lia.
  - apply (lzw_calls_hash _ _ _ csh_find_ok B); auto.
Qed.

Lemma hash_lz78_pf : forall t c text, t = hash_trie \/ t = csh_trie -> coder_ok_char c -> bytes_ok text ->
  ~ In 0 text -> N.of_nat (length text) + 258 < 2 ^ 32 ->
  exists f, lz78_compress t 0 c text = Some f /\
    forall fuel, (length text <= fuel)%nat -> lz78_decompress c fuel f = Some text.
Proof.
  intros t c text Ht Hc Hb H0 Hl.
  destruct (lz78_char_pf (2 ^ 32) spec_trie 0 c text) as (f & E & D); auto using spec_trie_ok; try lia.
  exists f. split; auto. unfold lz78_compress in *.
  destruct (hash_calls_pf text Hb H0) as (A & _ & B & _); [lia|].
  destruct Ht as [->| ->]; [rewrite A|rewrite B]; auto.
Qed.
Lemma hash_lzw_pf : forall t c text, t = hash_trie \/ t = csh_trie -> coder_ok c -> bytes_ok text ->
  ~ In 0 text -> N.of_nat (length text) + 258 < 2 ^ 32 ->
  exists f, lzw_compress t 0 c text = Some f /\
    forall fuel, (length text <= fuel)%nat -> lzw_decompress c 0 fuel f = Some text.
Proof.
  intros t c text Ht Hc Hb H0 Hl.
  destruct (lzw_pf (2 ^ 32) spec_trie c text) as (f & E & D); auto using spec_trie_ok; try lia.
  exists f. split; auto. unfold lzw_compress in *.
  destruct (hash_calls_pf text Hb H0) as (_ & A & _ & B); [lia|].
  destruct Ht as [->| ->]; [rewrite A|rewrite B]; auto.
Qed.
